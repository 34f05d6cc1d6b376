(** Stacks that stay low and stacks that do not (C126) *)
From Coq Require Import List Bool Arith String Lia.
From Verif Require Import BTree Model Strings Spec SpecP Interface Check Examples Refute Refute2 HeightSpec Height.
Import ListNotations.
Local Open Scope string_scope.
Local Open Scope list_scope.
Local Notation length := List.length.

Fixpoint ranked_rhs (nt : string -> bool) (rank : string -> nat) (r : nat) (first : bool) (rhs : list string) : bool :=
  match rhs with
  | [] => true
  | X :: rhs => (negb (nt X) || (Nat.ltb (rank X) r) || (first && Nat.leb (rank X) r)) && ranked_rhs nt rank r false rhs
  end.
Definition is_nt (rules : rulemap string) (X : string) : bool := match bm_get X rules with Some _ => true | None => false end.
Definition ranked_b (rules : rulemap string) (rank : string -> nat) : bool :=
  forallb (fun '(A, i, rhs) => ranked_rhs (is_nt rules) rank (rank A) true rhs) (prods rules).
Lemma ranked_ok rules rank : wf_rules rules -> ranked_b rules rank = true -> left_ranked rules rank.
Proof.
  intros W H A i u B v Hp (r & Hr). apply (forall_prods _ W _ H) in Hp. cbn beta iota in Hp.
  assert (is_nt rules B = true) as Hb by (unfold is_nt; now rewrite Hr). revert Hp.
  assert (forall b, ranked_rhs (is_nt rules) rank (rank A) b (u ++ B :: v) = true -> rank B < rank A \/ ((b = true /\ u = []) /\ rank B <= rank A)) as K.
  { induction u as [|X u IH]; intros b E; cbn [app ranked_rhs] in E; apply andb_prop in E as [E1 E2].
    - rewrite Hb in E1. cbn [negb orb] in E1. apply orb_prop in E1 as [E1|E1]; [apply Nat.ltb_lt in E1; auto|]. apply andb_prop in E1 as [-> E1]. apply Nat.leb_le in E1. auto.
    - apply IH in E2 as [E2|[[E2 _] _]]; [auto|discriminate]. }
  intros E. apply K in E as [E|[[_ E] E']]; auto.
Qed.
Definition widest_b (rules : rulemap string) (n : nat) : bool := forallb (fun '(A, i, rhs) => Nat.leb (length rhs) n) (prods rules).
Lemma widest_ok rules n : wf_rules rules -> widest_b rules n = true -> widest rules n.
Proof. intros W H A i rhs Hp. apply (forall_prods _ W _ H) in Hp. now apply Nat.leb_le in Hp. Qed.

(** Z -> L; L -> L , x | x *)
Definition row := grammar_map [("Z", [["L"]]); ("L", [["L"; ","; "x"]; ["x"]])].
Definition row_g := gof "Z" row (calc_g true).
Definition row_t k := tab k true 60 row_g.
Lemma row_facts : wf_rules row /\ grammar_new true "Z" row "$" = Val row_g /\ (forall k, makes k true row_g (row_t k)) /\ term row "$" /\
  left_only row "Z" /\ widest row 3.
Proof.
  assert (wf_rules row) as W by facts.
  split; auto. split; [check|]. split; [intros k; apply tab_makes; destruct k; check|]. split; [facts|].
  split; [apply ranked_left with (fun X => if eqb X "Z" then 1 else 0); apply ranked_ok; [auto|check]|]. apply widest_ok; [auto|check].
Qed.

(** Z -> a Y; Y -> b c: the stack is as high as the bound *)
Definition tight := grammar_map [("Z", [["a"; "Y"]]); ("Y", [["b"; "c"]])].
Definition tight_g := gof "Z" tight (calc_g true).
Definition tight_t k := tab k true 60 tight_g.
Definition tight_in := to_tokens ["a"; "b"; "c"].
Definition tight_d k n := Nat.iter n next_conf (dfa_new tight_in (t_actions (tight_t k)) (empty_map tight_g) "$").
Lemma tight_facts : wf_rules tight /\ grammar_new true "Z" tight "$" = Val tight_g /\ (forall k, makes k true tight_g (tight_t k)) /\ term tight "$" /\
  left_only tight "Z" /\ widest tight 2 /\ Forall (term tight) (map tk_ty tight_in) /\
  forall k, reaches (tight_t k) tight_in (empty_map tight_g) (tight_d k 3) /\ length (d_items (tight_d k 3)) = length tight * (2 - 1) + 1.
Proof.
  assert (wf_rules tight) as W by facts.
  split; auto. split; [check|]. split; [intros k; apply tab_makes; destruct k; check|]. split; [facts|].
  split; [apply ranked_left with (fun X => if eqb X "Z" then 1 else 0); apply ranked_ok; [auto|check]|]. split; [apply widest_ok; [auto|check]|].
  split; [repeat constructor; facts|]. intros k. split; [|destruct k; check].
  assert (forall n, n < 3 -> round (tight_d k n) (tight_d k (S n))) as R.
  { intros n Hn. do 3 (destruct n as [|n]; [split; [destruct k; check|exists 5; destruct k; check]|]). exfalso. do 3 apply Nat.succ_lt_mono in Hn. inversion Hn. }
  do 3 (eapply reaches_round; [|apply R; repeat constructor]). constructor. destruct k; check.
Qed.

(** Z -> S; S -> ( S ) | x *)
Definition nest := grammar_map [("Z", [["S"]]); ("S", [["("; "S"; ")"]; ["x"]])].
Definition nest_g := gof "Z" nest (calc_g true).
Definition nest_t k := tab k true 60 nest_g.
Lemma nest_facts : (wf_rules nest /\ grammar_new true "Z" nest "$" = Val nest_g /\ (forall k, makes k true nest_g (nest_t k)) /\ term nest "$") /\
  start_fresh nest "Z" /\ single_start nest "Z" /\ productive nest /\ covers nest (empty_map nest_g) /\ (forall k, conflicts (t_actions (nest_t k)) = []) /\ carries (nest_t LALR) /\
  down nest "Z" [] "S" /\ down nest "S" ["("] "S".
Proof.
  assert (wf_rules nest) as W by facts. split.
  { split; auto. split; [check|]. split; [intros k; apply tab_makes; destruct k; check|facts]. }
  split; [facts|]. split; [facts|]. split; [apply (productive_ok nest W ["S"; "Z"]); check|]. split; [apply covers_ok; [auto|check]|].
  split; [intros k; destruct k; check|]. split; [apply carries_ok; check|]. split; [apply (down_one nest "Z" 0 [] "S" []); apply prod_ok; [auto|check]|].
  apply (down_one nest "S" 0 ["("] "S" [")"]). apply prod_ok; [auto|check].
Qed.
