(** A rule out of reach that matters to Slr and not to Clr (C122). *)
From Coq Require Import List Bool Arith String.
From Verif Require Import BTree Model Strings Spec SpecP Interface Check Examples Refute Refute2 LR1Spec ValidSpec.
Import ListNotations.
Local Open Scope string_scope.
Local Open Scope list_scope.

(** Z -> S; S -> A x | B y; A -> c; B -> c, and the same with U -> A y *)
Definition live := grammar_map [("Z", [["S"]]); ("S", [["A"; "x"]; ["B"; "y"]]); ("A", [["c"]]); ("B", [["c"]])].
Definition dead := grammar_map [("Z", [["S"]]); ("S", [["A"; "x"]; ["B"; "y"]]); ("A", [["c"]]); ("B", [["c"]]); ("U", [["A"; "y"]])].
Definition live_g := gof "Z" live (calc_g true).
Definition dead_g := gof "Z" dead (calc_g true).
Definition live_t k := tab k true 60 live_g.
Definition dead_t k := tab k true 60 dead_g.

Lemma live_facts : wf_rules live /\ wf_rules dead /\ grammar_new true "Z" live "$" = Val live_g /\ grammar_new true "Z" dead "$" = Val dead_g /\
  (forall k, makes k true live_g (live_t k)) /\ (forall k, makes k true dead_g (dead_t k)) /\ term live "$" /\ term dead "$".
Proof.
  split; [facts|]. split; [facts|]. split; [check|]. split; [check|].
  split; [intros k; apply tab_makes; destruct k; check|]. split; [intros k; apply tab_makes; destruct k; check|]. split; facts.
Qed.

Lemma live_productive : productive live /\ productive dead.
Proof.
  split.
  - apply (productive_ok live ltac:(apply grammar_map_wf) ["A"; "B"; "S"; "Z"]). check.
  - apply (productive_ok dead ltac:(apply grammar_map_wf) ["A"; "B"; "S"; "U"; "Z"]). check.
Qed.

Lemma live_covers : covers live (empty_map dead_g) /\ covers dead (empty_map dead_g).
Proof. split; (apply covers_ok; [apply grammar_map_wf|check]). Qed.

(** what does not have U, never will *)
Lemma live_noU u w : derives live u w -> ~ In "U" u -> ~ In "U" w.
Proof.
  induction 1 as [|u v w R D IH]; auto. intros N. apply IH. destruct R as [a A b i rhs P]. intros H. apply N.
  apply in_app_iff in H as [H|H]; [apply in_app_iff; auto|]. apply in_app_iff in H as [H|H]; [|apply in_app_iff; right; now right]. exfalso.
  destruct P as (r & k & E & F). apply nth_error_In in F. 
  assert (In (A, r) live) as Hin by (apply bm_get_in in E; exact E). clear E.
  vm_compute in Hin. repeat (destruct Hin as [[= <- <-]|Hin]; [cbn in F; repeat (destruct F as [[= <- <-]|F]; [cbn in H; repeat (destruct H as [H|H]; [discriminate|]); destruct H|]); destruct F|]). destruct Hin.
Qed.

Lemma live_same : same_from "Z" live dead.
Proof.
  intros u A v D. apply live_noU in D; [|cbn; intuition discriminate].
  assert (A <> "U") as N by (intros ->; apply D, in_app_iff; right; now left).
  assert (bm_get A live = bm_get A dead) as E.
  { destruct (string_dec A "A") as [->|]; [check|]. destruct (string_dec A "B") as [->|]; [check|]. destruct (string_dec A "S") as [->|]; [check|]. destruct (string_dec A "Z") as [->|]; [check|].
    transitivity (@None (rule string)); [|symmetry]; (destruct (bm_get A _) as [r|] eqn:E; [|reflexivity]); exfalso;
    apply bm_get_in in E; vm_compute in E; repeat (destruct E as [[= <- <-]|E]; [congruence|]); destruct E. }
  split; [unfold nonterm; now rewrite E|]. intros. unfold prod_at. now rewrite E.
Qed.

Definition dead_in z := to_tokens ["c"; z].
Lemma dead_terms z : z = "x" \/ z = "y" -> Forall (term live) (map tk_ty (dead_in z)) /\ Forall (term dead) (map tk_ty (dead_in z)).
Proof. intros [-> | ->]; split; facts. Qed.

Lemma dead_runs : parses (live_t CLR) (dead_in "y") (empty_map dead_g) (POk tt) /\ parses (dead_t CLR) (dead_in "y") (empty_map dead_g) (POk tt) /\
  parses (live_t CLR) (dead_in "c") (empty_map dead_g) (PErr (UnexpectedToken "c" ["x"; "y"])) /\ parses (dead_t CLR) (dead_in "c") (empty_map dead_g) (PErr (UnexpectedToken "c" ["x"; "y"])) /\
  conflicts (t_actions (live_t CLR)) = [] /\ conflicts (t_actions (dead_t CLR)) = [].
Proof.
  split; [exists 50; check|]. split; [exists 50; check|]. split; [exists 50; check|]. split; [exists 50; check|]. split; check.
Qed.

(** Slr fails on what it accepted *)
Lemma dead_slr : conflicts (t_actions (live_t SLR)) = [] /\ conflicts (t_actions (dead_t SLR)) <> [] /\
  parses (live_t SLR) (dead_in "y") (empty_map dead_g) (POk tt) /\ exists a b, parses (dead_t SLR) (dead_in "y") (empty_map dead_g) (PErr (ConflictErr a b)).
Proof.
  split; [check|]. split; [apply nonempty; check|]. split; [exists 50; check|]. eexists. eexists. exists 50. check.
Qed.

Lemma dead_U : nonterm dead "U". Proof. eexists. vm_compute. reflexivity. Qed.
Lemma live_U : ~ nonterm live "U". Proof. intros (r & E). vm_compute in E. discriminate. Qed.
