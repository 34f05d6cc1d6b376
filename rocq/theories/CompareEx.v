(** One grammar, three parsers, three inputs (C124). *)
From Coq Require Import List Bool Arith String.
From Verif Require Import BTree Model Strings Spec SpecP Interface Check Examples Refute Refute2 LR1Spec ValidSpec Pass PassB CompareSpec.
Import ListNotations.
Local Open Scope string_scope.
Local Open Scope list_scope.

(** Z -> S; S -> A x | B y | d A z | e B z; A -> c; B -> c *)
Definition clash := grammar_map [("Z", [["S"]]); ("S", [["A"; "x"]; ["B"; "y"]; ["d"; "A"; "z"]; ["e"; "B"; "z"]]); ("A", [["c"]]); ("B", [["c"]])].
Definition clash_g := gof "Z" clash (calc_g true).
Definition clash_t k := tab k true 60 clash_g.

Lemma clash_facts : wf_rules clash /\ grammar_new true "Z" clash "$" = Val clash_g /\ (forall k, makes k true clash_g (clash_t k)) /\ term clash "$" /\ start_fresh clash "Z" /\
  productive clash /\ covers clash (empty_map clash_g) /\ hands_on (clash_t LALR) /\ grounded clash "Z" "$" (clash_t LALR).
Proof.
  assert (wf_rules clash) as W by facts. assert (grammar_new true "Z" clash "$" = Val clash_g) as Hg by check.
  assert (forall k, makes k true clash_g (clash_t k)) as Hm by (intros k; apply tab_makes; destruct k; check).
  split; auto. split; auto. split; auto. split; [facts|]. split; [facts|].
  split; [apply (productive_ok clash W ["A"; "B"; "S"; "Z"]); check|]. split; [apply covers_ok; [auto|check]|].
  split; [eapply carries_hands_on; eauto; apply carries_ok; check|]. apply (grounded_ok clash "Z" "$" _ W 20 8). check.
Qed.

Definition clash_in (s : string) := to_tokens ["c"; s].
Lemma clash_runs : (forall k, parses (clash_t k) (clash_in "x") (empty_map clash_g) (POk tt)) /\
  parses (clash_t SLR) (clash_in "c") (empty_map clash_g) (PErr (UnexpectedToken "c" ["x"; "y"; "z"])) /\
  parses (clash_t CLR) (clash_in "c") (empty_map clash_g) (PErr (UnexpectedToken "c" ["x"; "y"])) /\
  parses (clash_t SLR) (clash_in "z") (empty_map clash_g) (PErr (ConflictErr (Reduce "A" (["c"], 0)) (Reduce "B" (["c"], 0)))) /\
  parses (clash_t CLR) (clash_in "z") (empty_map clash_g) (PErr (UnexpectedToken "z" ["x"; "y"])).
Proof. split; [intros k; exists 60; destruct k; check|]. repeat split; exists 60; check. Qed.
