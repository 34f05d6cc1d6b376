(** Examples and counterexamples beside C93 and C94: the same grammar under other names. *)
From Coq Require Import List Bool Arith String Lia.
From Verif Require Import BTree Model Show Strings Grammars Base Spec SpecP GrammarP Interface Wrap Check Examples Refute LR1Spec HandleF RenameSpec Rename.
Import ListNotations.
Local Open Scope string_scope.
Local Open Scope list_scope.
Local Notation length := List.length.

(** exchanges the two names of each pair *)
Fixpoint swaps (l : list (string * string)) (x : string) : string :=
  match l with
  | [] => x
  | (a, b) :: l' => if eqb x a then b else if eqb x b then a else swaps l' x
  end.

Lemma swaps_out l x : ~ In x (map fst l ++ map snd l) -> swaps l x = x.
Proof.
  induction l as [|[a b] l IH]; intros H; auto. cbn [swaps]. cbn [map fst snd] in H. rewrite in_app_iff in H. cbn [In] in H.
  destruct (eqb_spec x a) as [->|_]; [exfalso; tauto|]. destruct (eqb_spec x b) as [->|_]; [exfalso; tauto|].
  apply IH. rewrite in_app_iff. tauto.
Qed.

Lemma swaps_twice l : forallb (fun x => eqb (swaps l (swaps l x)) x) (map fst l ++ map snd l) = true -> forall x, swaps l (swaps l x) = x.
Proof.
  intros H x. destruct (in_dec string_dec x (map fst l ++ map snd l)) as [Hi|N].
  - rewrite forallb_forall in H. apply H in Hi. now apply eqb_eq in Hi.
  - rewrite !(swaps_out l x) by auto. auto.
Qed.

Lemma renames_ok l m r1 r2 : wf_rules r1 -> wf_rules r2 ->
  forallb (fun x => eqb (swaps l (swaps l x)) x) (map fst l ++ map snd l) = true ->
  map (swaps l) (bm_keys r1) = bm_keys r2 \/ (forallb (fun x => nonterm_b r2 (swaps l x)) (bm_keys r1) && forallb (fun x => nonterm_b r1 (swaps l x)) (bm_keys r2) = true) ->
  (forall A i rhs, In (A, i, rhs) (prods r1) -> In (swaps l A, m A i, map (swaps l) rhs) (prods r2)) ->
  (forall B j rhs, In (B, j, rhs) (prods r2) -> exists i, j = m (swaps l B) i /\ In (swaps l B, i, map (swaps l) rhs) (prods r1)) ->
  (forall A i j rhs rhs', In (A, i, rhs) (prods r1) -> In (A, j, rhs') (prods r1) -> m A i = m A j -> i = j) ->
  renames (swaps l) m r1 r2.
Proof.
  intros W1 W2 Hs Hk H1 H2 H3. pose proof (swaps_twice l Hs) as Hi.
  assert (map_twice : forall u, map (swaps l) (map (swaps l) u) = u).
  { intros u. rewrite map_map. rewrite (map_ext _ (fun x => x)) by auto. apply map_id. }
  assert (K : forall (r : rulemap string) A, nonterm r A <-> In A (bm_keys r)).
  { intros r A. split; [intros (x & Hx); apply bm_get_in in Hx; apply in_map_iff; now exists (A, x)|]. intros H. now apply bm_get_keys in H. }
  assert (forall A, nonterm r1 A -> nonterm r2 (swaps l A)) as N1.
  { intros A HA. apply K in HA. destruct Hk as [Hk|Hk]; [apply K; rewrite <- Hk; now apply in_map|].
    apply andb_true_iff in Hk as [Hk _]. rewrite forallb_forall in Hk. apply nonterm_b_true. auto. }
  constructor; auto.
  - intros x y E. rewrite <- (Hi x), <- (Hi y). now rewrite E.
  - intros B HB. exists (swaps l B). split; [now rewrite Hi|]. apply K in HB. destruct Hk as [Hk|Hk].
    + rewrite <- Hk in HB. apply in_map_iff in HB as (A & <- & HA). rewrite Hi. now apply K.
    + apply andb_true_iff in Hk as [_ Hk]. rewrite forallb_forall in Hk. apply nonterm_b_true. auto.
  - intros A i rhs Hp. apply prods_in; auto. apply H1. now apply prods_in.
  - intros A j rhs' Hp. apply prods_in in Hp; auto. destruct (H2 _ _ _ Hp) as (i & -> & Hq). rewrite Hi in *. exists i, (map (swaps l) rhs').
    split; auto. split; [now rewrite map_twice|]. now apply prods_in.
  - intros A i j rhs rhs' P1 P2. apply prods_in in P1, P2; auto. eauto.
Qed.

Ltac renaming := apply renames_ok; [facts|facts|check|right; check| | |];
  [ intros A i rhs H; vm_compute in H; repeat (destruct H as [[= <- <- <-]|H]; [vm_compute; tauto|]); destruct H
  | intros B j rhs H; vm_compute in H; repeat (destruct H as [[= <- <- <-]|H]; [first [exists 0; split; [check|vm_compute; tauto]|exists 1; split; [check|vm_compute; tauto]]|]); destruct H
  | intros A i j rhs rhs' H H'; vm_compute in H; repeat (destruct H as [[= <- <- <-]|H]; [vm_compute in H'; repeat (destruct H' as [E|H']; [solve [discriminate E|injection E as <- <-; vm_compute; lia]|]); destruct H'|]); destruct H ].

(** ** calc: other letters, and the alternatives of the expressions in reverse order *)
Definition calc_names := [("Z", "A"); ("E", "B"); ("T", "C"); ("+", "-"); ("n", "k")].
Definition calc_alts (A : string) (i : nat) : nat := if eqb A "E" then 1 - i else i.
Definition calc' := grammar_map [("A", [["B"]]); ("B", [["C"]; ["B"; "-"; "C"]]); ("C", [["k"]; ["("; "B"; ")"]])].
Definition calc'_g := gof "A" calc' (calc_g true).
Lemma calc_renames : renames (swaps calc_names) calc_alts calc calc'.
Proof. renaming. Qed.

Definition calc'_tab k := tab k true 60 calc'_g.
Definition calc'_maps : reductmap string nat :=
  bm_of_list [("A", [fun l => 100 + nth_val l 0]);
              ("B", [fun l => nth_val l 0; fun l => nth_val l 0 + nth_val l 2]);
              ("C", [fun l => nth_val l 0; fun l => nth_val l 1])].

Lemma nth_val_retok f l i : nth_val (map (retok f) l) i = nth_val l i.
Proof. unfold nth_val. rewrite nth_error_map. destruct (nth_error l i); reflexivity. Qed.

Lemma calc_same : same_reductors (swaps calc_names) calc_alts calc calc_maps calc'_maps.
Proof.
  intros A i rhs H. apply (prods_in calc calc_wf) in H. vm_compute in H.
  repeat (destruct H as [[= <- <- <-]|H]; [do 4 eexists; split; [reflexivity|]; split; [reflexivity|]; split; [reflexivity|]; split; [reflexivity|];
    intros its; cbv beta; rewrite ?nth_val_retok; reflexivity|]). destruct H.
Qed.

Lemma calc'_facts : wf_rules calc' /\ grammar_new true "A" calc' "$" = Val calc'_g /\ (forall k, makes k true calc'_g (calc'_tab k)) /\
  parses (calc'_tab SLR) (map (retok (swaps calc_names)) calc_input) calc'_maps (POk 6).
Proof. split; [facts|]. split; [check|]. split; [intros k; apply tab_makes; destruct k; check|]. exists 30. check. Qed.

(** ** Lalr: a conflict, or a rejected sentence, that goes away when [a] and [c] exchange their names *)
Definition ac := [("a", "c")].
Definition hidden' := grammar_map [("Z", [["S"]]); ("S", [["A"; "x"]; ["a"; "A"; "y"]]); ("A", [["c"; "B"]]); ("B", [["b"]; ["b"; "y"]])].
Definition hidden'_g := gof "Z" hidden' (calc_g true).
Definition lost' := grammar_map [("Z", [["S"]]); ("S", [["A"; "x"]; ["a"; "A"; "y"]]); ("A", [["c"; "B"]]); ("B", [["b"]])].
Definition lost'_g := gof "Z" lost' (calc_g true).

Lemma hidden_renames : renames (swaps ac) (fun _ i => i) hidden hidden'.
Proof. renaming. Qed.
Lemma lost_renames : renames (swaps ac) (fun _ i => i) lost lost'.
Proof. renaming. Qed.

Lemma lalr_conflict_names : exists (f : string -> string) (rules rules' : rulemap string) (start eof : string) (g g' : grammar string) (t t' : tabler string),
  renames f (fun _ i => i) rules rules' /\ wf_rules rules /\ wf_rules rules' /\
  grammar_new true start rules eof = Val g /\ grammar_new true (f start) rules' (f eof) = Val g' /\ term rules eof /\ productive rules /\ start_fresh rules start /\
  makes LALR true g t /\ makes LALR true g' t' /\ conflicts (t_actions t) = [] /\ conflicts (t_actions t') <> [].
Proof.
  exists (swaps ac), hidden, hidden', "Z", "$", hidden_g, hidden'_g, (tab LALR true 60 hidden_g), (tab LALR true 60 hidden'_g).
  split; [apply hidden_renames|]. split; [facts|]. split; [facts|]. split; [apply hidden_gE|]. split; [check|]. split; [facts|].
  split; [apply (productive_ok hidden ltac:(facts) ["B"; "A"; "S"; "Z"]); check|]. split; [facts|].
  split; [apply hidden_makes|]. split; [apply (tab_makes LALR); check|]. split; [apply hidden_lalr|apply nonempty; check].
Qed.

Lemma lalr_language_names : exists (f : string -> string) (rules rules' : rulemap string) (start eof : string) (g g' : grammar string) (t t' : tabler string) (w : list (token string unit)),
  renames f (fun _ i => i) rules rules' /\ wf_rules rules /\ wf_rules rules' /\
  grammar_new true start rules eof = Val g /\ grammar_new true (f start) rules' (f eof) = Val g' /\ term rules eof /\ productive rules /\ start_fresh rules start /\
  makes LALR true g t /\ makes LALR true g' t' /\ conflicts (t_actions t) = [] /\ conflicts (t_actions t') = [] /\
  validates t w false /\ validates t' (map (retok f) w) true.
Proof.
  exists (swaps ac), lost, lost', "Z", "$", lost_g, lost'_g, (tab LALR true 60 lost_g), (tab LALR true 60 lost'_g), (to_tokens ["c"; "a"; "b"; "y"]).
  split; [apply lost_renames|]. split; [facts|]. split; [facts|]. split; [apply lost_gE|]. split; [check|]. split; [facts|].
  split; [apply (productive_ok lost ltac:(facts) ["B"; "A"; "S"; "Z"]); check|]. split; [facts|].
  split; [apply lost_makes|]. split; [apply (tab_makes LALR); check|]. split; [apply (lost_clean LALR)|]. split; [check|].
  split; [apply lost_rejects|]. exists 20. check.
Qed.

Lemma calc'_carries : carries (calc'_tab LALR). Proof. apply carries_ok. check. Qed.
