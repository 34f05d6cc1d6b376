(** The statements of C112 - C114 put together, and grammars to try them on. *)
From Coq Require Import List Bool Arith String Lia Relation_Operators.
From Verif Require Import BTree Model Strings Spec SpecP GrammarP FirstFollow Interface Check Examples Refute StopsSpec Stops StopsLoop.
Import ListNotations.
Local Open Scope string_scope.

Section All.
Context (T : Type) (OT : Ord T).
Variables (start eof : T) (rules : rulemap T) (g : grammar T).
Hypothesis W : wf_rules rules.
Hypothesis NE : forall A i rhs, prod_at rules A i rhs -> rhs <> [].
Hypothesis He : term rules eof.

Lemma debug_outcomes : grammar_new true start rules eof = Val g ->
  ((exists t, tabler_makes true g t) <-> vanishes (left_corner rules) /\ vanishes (right_corner rules)) /\
  ((exists fuel, tabler_new true fuel g = Panic P_debug_assert) <->
     (settles (left_corner rules) /\ ~ vanishes (left_corner rules)) \/
     (vanishes (left_corner rules) /\ settles (right_corner rules) /\ ~ vanishes (right_corner rules))) /\
  ((forall fuel, tabler_new true fuel g = Fuel) <->
     (settles (left_corner rules) -> vanishes (left_corner rules) /\ ~ settles (right_corner rules))) /\
  (forall fuel p, tabler_new true fuel g = Panic p -> p = P_debug_assert).
Proof.
  intros Hg. destruct (new_debug true start eof rules g W Hg NE He eq_refl) as (D1 & D2 & D3 & D4).
  split; auto. split; auto. split.
  - split; [exact D4|]. intros H fuel. destruct (D3 fuel) as [(t & E)|[E|E]]; auto; exfalso.
    + assert (exists t, tabler_makes true g t) as X by (exists t, fuel; exact E). apply D1 in X as [V1 V2].
      apply (proj2 (H (vanishes_settles _ V1))). now apply vanishes_settles.
    + assert (exists fuel, tabler_new true fuel g = Panic P_debug_assert) as X by eauto. apply D2 in X as [[S1 N1]|(V1 & S2 & _)].
      * apply N1. now apply H.
      * apply (proj2 (H (vanishes_settles _ V1))). exact S2.
  - intros fuel p Ep. destruct (D3 fuel) as [(t & E)|[E|E]]; congruence.
Qed.

Lemma release_outcomes : grammar_new false start rules eof = Val g ->
  ((exists t, tabler_makes false g t) <-> settles (left_corner rules) /\ settles (follow_ptr rules)) /\
  ((forall fuel, tabler_new false fuel g = Fuel) <-> ~ (settles (left_corner rules) /\ settles (follow_ptr rules))) /\
  (forall fuel p, tabler_new false fuel g <> Panic p).
Proof.
  intros Hg. destruct (new_release false start eof rules g W Hg NE He eq_refl) as (D1 & D2).
  split; auto. split.
  - split.
    + intros H X. apply D1 in X as (t & fuel & E). rewrite H in E. discriminate.
    + intros H fuel. destruct (D2 fuel) as [(t & E)|E]; auto. exfalso. apply H. apply D1. exists t, fuel. exact E.
  - intros fuel p E. destruct (D2 fuel) as [(t & E')|E']; congruence.
Qed.

Lemma left_in_tables dbg : grammar_new dbg start rules eof = Val g -> forall t, tabler_makes dbg g t ->
  forall A B, nonterm rules B ->
  ((exists s, bm_get A (t_first t) = Some s /\ In B s) <-> lasting (left_corner rules) A B) /\
  ((exists s, bm_get A (t_follow t) = Some s /\ In B s) <-> lasting (follow_ptr rules) A B).
Proof.
  intros Hg t Ht A B HB. destruct (new_tables dbg start eof rules g W Hg NE He t Ht) as [H1 H2]. split; [now apply H1|now apply H2].
Qed.

Lemma chain_outcomes dbg : grammar_new dbg start rules eof = Val g ->
  functional (left_corner rules) -> functional (right_corner rules) ->
  ((exists t, tabler_makes dbg g t) <->
     forall A n, loop_of (left_corner rules) n A \/ loop_of (right_corner rules) n A -> power_of_two n) /\
  ((forall fuel, tabler_new dbg fuel g = Fuel) <->
     ~ forall A n, loop_of (left_corner rules) n A \/ loop_of (right_corner rules) n A -> power_of_two n) /\
  (forall fuel p, tabler_new dbg fuel g <> Panic p).
Proof.
  intros Hg FL FR. destruct (chains dbg start eof rules g W Hg NE He FL FR) as (D1 & D2).
  assert (D1' : (exists t, tabler_makes dbg g t) <->
     forall A n, loop_of (left_corner rules) n A \/ loop_of (right_corner rules) n A -> power_of_two n).
  { rewrite D1. split; [intros [H1 H2] A n [H|H]; eauto|]. intros H. split; intros A n L; apply (H A n); auto. }
  split; auto. split.
  - split.
    + intros H X. apply D1' in X as (t & fuel & E). rewrite H in E. discriminate.
    + intros H fuel. destruct (D2 fuel) as [(t & E)|E]; auto. exfalso. apply H. apply D1'. exists t, fuel. exact E.
  - intros fuel p E. destruct (D2 fuel) as [(t & E')|E']; congruence.
Qed.

Lemma round_count dbg r : grammar_new dbg start rules eof = Val g -> no_left_cycle rules -> no_right_cycle rules -> 1 <= r ->
  ((exists t, tabler_new dbg (S r) g = Val t) <->
   (forall A B, ~ steps (left_corner rules) (2 ^ r) A B) /\ (forall A B, ~ steps (right_corner rules) (2 ^ r) A B)) /\
  (List.length rules <= 2 ^ r -> exists t, tabler_new dbg (S r) g = Val t).
Proof. intros Hg HL HR Hr. split; [now apply (new_exact dbg start eof rules g W Hg NE He)|now apply (new_log dbg start eof rules g W Hg NE He)]. Qed.
End All.

(** ** grammars *)

(** a relation that is contained in a finite function is functional *)
Section Fun.
Context {T : Type} {OT : Ord T}.
Variable rules : rulemap T.
Hypothesis W : wf_rules rules.
Definition next_b (m : bmap T T) (A B : T) : bool := match bm_get A m with Some C => eqb B C | None => false end.
Definition lefts_b (m : bmap T T) : bool := forallb (fun '(A, _, rhs) =>
  match rhs with B :: _ => negb (nonterm_b rules B) || eqb A B || next_b m A B | [] => true end) (prods rules).
Definition rights_b (m : bmap T T) : bool := forallb (fun '(A, _, rhs) =>
  match rev rhs with B :: _ => negb (nonterm_b rules B) || eqb A B || next_b m A B | [] => true end) (prods rules).

Lemma next_fun (R : T -> T -> Prop) m : (forall A B, R A B -> next_b m A B = true) -> functional R.
Proof.
  intros H A B C H1 H2. apply H in H1, H2. unfold next_b in *. destruct (bm_get A m); [|discriminate].
  apply eqb_eq in H1, H2. congruence.
Qed.
Lemma lefts_ok m : lefts_b m = true -> functional (left_corner rules).
Proof.
  intros H. apply (next_fun _ m). intros A B (i & v & Hp & HB & N). apply (forall_prods rules W _ H) in Hp.
  apply nonterm_b_true in HB. rewrite HB in Hp. simpl in Hp. destruct (eqb_spec A B) as [E|_]; [congruence|]. exact Hp.
Qed.
Lemma rights_ok m : rights_b m = true -> functional (right_corner rules).
Proof.
  intros H. apply (next_fun _ m). intros A B (i & v & Hp & HB & N). apply (forall_prods rules W _ H) in Hp.
  rewrite rev_app_distr in Hp. simpl in Hp.
  apply nonterm_b_true in HB. rewrite HB in Hp. simpl in Hp. destruct (eqb_spec A B) as [E|_]; [congruence|]. exact Hp.
Qed.
End Fun.

(** left recursion through two nonterminals, and through four *)
Definition left2 := grammar_map [("Z", [["A"]]); ("A", [["B"; "x"]]); ("B", [["A"; "y"]; ["b"]])].
Definition left4 := grammar_map [("Z", [["A"]]); ("A", [["B"; "x"]]); ("B", [["C"; "y"]]); ("C", [["D"; "z"]]); ("D", [["A"; "w"]; ["d"]])].
Definition left2_g := gof "Z" left2 (calc_g true).
Definition left4_g := gof "Z" left4 (calc_g true).
Lemma left2_gE dbg : grammar_new dbg "Z" left2 "$" = Val left2_g. Proof. destruct dbg; check. Qed.
Lemma left4_gE dbg : grammar_new dbg "Z" left4 "$" = Val left4_g. Proof. destruct dbg; check. Qed.

Ltac corner B rest := exists 0, rest; split; [apply prod_ok; [apply grammar_map_wf|check]|split; [apply nonterm_b_true; check|discriminate]].

Lemma left2_corner : left_corner left2 "A" "B" /\ left_corner left2 "B" "A".
Proof. split; [corner "B" ["x"]|corner "A" ["y"]]. Qed.
Lemma left2_cycle : ~ no_left_cycle left2.
Proof. intros H. apply (H "A"). eapply t_trans; apply t_step; apply left2_corner. Qed.

Lemma left4_fun : functional (left_corner left4) /\ functional (right_corner left4).
Proof.
  split; [apply (lefts_ok _ (grammar_map_wf _) [("A", "B"); ("B", "C"); ("C", "D"); ("D", "A"); ("Z", "A")]); check|].
  apply (rights_ok _ (grammar_map_wf _) [("Z", "A")]). check.
Qed.
Lemma left3_fun : functional (left_corner left3) /\ functional (right_corner left3).
Proof.
  split; [apply (lefts_ok _ (grammar_map_wf _) [("A", "B"); ("B", "C"); ("C", "A"); ("Z", "A")]); check|].
  apply (rights_ok _ (grammar_map_wf _) [("Z", "A")]). check.
Qed.

Lemma left3_corners : left_corner left3 "A" "B" /\ left_corner left3 "B" "C" /\ left_corner left3 "C" "A".
Proof. repeat split; [corner "B" ["x"]|corner "C" ["y"]|corner "A" ["z"]]. Qed.
Lemma left4_corners : left_corner left4 "A" "B" /\ left_corner left4 "B" "C" /\ left_corner left4 "C" "D" /\ left_corner left4 "D" "A".
Proof. repeat split; [corner "B" ["x"]|corner "C" ["y"]|corner "D" ["z"]|corner "A" ["w"]]. Qed.

Lemma left3_loop : loop_of (left_corner left3) 3 "A".
Proof.
  destruct left3_corners as (H1 & H2 & H3). split; [lia|]. split; [cbn [steps]; eauto 8|].
  intros [|[|[|m]]] L H; try lia; cbn [steps] in H.
  - destruct H as (C & HC & ->). now apply (proj1 left3_fun _ _ _ H1) in HC.
  - destruct H as (C & HC & D & HD & ->). apply (proj1 left3_fun _ _ _ H1) in HC. subst C. now apply (proj1 left3_fun _ _ _ H2) in HD.
Qed.
Lemma left4_loop : loop_of (left_corner left4) 4 "A".
Proof.
  destruct left4_corners as (H1 & H2 & H3 & H4). split; [lia|]. split; [cbn [steps]; eauto 10|].
  intros [|[|[|[|m]]]] L H; try lia; cbn [steps] in H.
  - destruct H as (C & HC & ->). now apply (proj1 left4_fun _ _ _ H1) in HC.
  - destruct H as (C & HC & D & HD & ->). apply (proj1 left4_fun _ _ _ H1) in HC. subst C. now apply (proj1 left4_fun _ _ _ H2) in HD.
  - destruct H as (C & HC & D & HD & E & HE & ->). apply (proj1 left4_fun _ _ _ H1) in HC. subst C. apply (proj1 left4_fun _ _ _ H2) in HD. subst D.
    now apply (proj1 left4_fun _ _ _ H3) in HE.
Qed.
Lemma three_not_power : ~ power_of_two 3.
Proof. intros ([|[|k]] & E); cbn in E; try discriminate. lia. Qed.

(** five nonterminals in a row *)
Definition row5 := grammar_map [("Z", [["A"; "z"]]); ("A", [["B"; "a"]]); ("B", [["C"; "b"]]); ("C", [["D"; "c"]]); ("D", [["d"]])].
Definition row5_g := gof "Z" row5 (calc_g true).
Lemma row5_gE dbg : grammar_new dbg "Z" row5 "$" = Val row5_g. Proof. destruct dbg; check. Qed.
Lemma row5_corners : left_corner row5 "Z" "A" /\ left_corner row5 "A" "B" /\ left_corner row5 "B" "C" /\ left_corner row5 "C" "D".
Proof. repeat split; [corner "A" ["z"]|corner "B" ["a"]|corner "C" ["b"]|corner "D" ["c"]]. Qed.
Lemma row5_walk : steps (left_corner row5) 4 "Z" "D".
Proof. destruct row5_corners as (H1 & H2 & H3 & H4). cbn [steps]. eauto 10. Qed.
Lemma row5_acyclic : no_left_cycle row5 /\ no_right_cycle row5.
Proof. split; [apply (left_ok row5 (grammar_map_wf _) ["D"; "C"; "B"; "A"; "Z"]); check|apply (right_ok row5 (grammar_map_wf _) ["D"; "C"; "B"; "A"; "Z"]); check]. Qed.
