(** A grammar on which the machines of Slr and Clr differ (C120, C121). *)
From Coq Require Import List Bool Arith String.
From Verif Require Import BTree Model Strings Spec SpecP Interface Check Examples Refute Refute2 LR1Spec ValidSpec Pass PassB Refute4.
Import ListNotations.
Local Open Scope string_scope.
Local Open Scope list_scope.

Definition assign_input := to_tokens ["i"; "="; "i"].
Definition assign_conf (k : method) (n : nat) : dfa string unit := Nat.iter n next_conf (dfa_new assign_input (t_actions (assign_t k)) (empty_map assign_g) "$").

Lemma assign_productive : productive assign.
Proof. apply (productive_ok assign ltac:(apply grammar_map_wf) ["L"; "R"; "S"; "Z"]). check. Qed.
Lemma assign_covers : covers assign (empty_map assign_g).
Proof. apply covers_ok; [apply grammar_map_wf|check]. Qed.
Lemma assign_terms : Forall (term assign) (map tk_ty assign_input). Proof. facts. Qed.

Lemma assign_reaches k : reaches (assign_t k) assign_input (empty_map assign_g) (assign_conf k 2) /\ d_finished (assign_conf k 2) = false /\
  map tk_ty (d_items (assign_conf k 2)) = ["L"] /\ lookahead (assign_conf k 2) = "=".
Proof.
  split; [|split; [destruct k; check|split; destruct k; check]].
  eapply reaches_round with (d := assign_conf k 1); [|split; [|exists 5]; destruct k; check].
  eapply reaches_round with (d := assign_conf k 0); [|split; [|exists 5]; destruct k; check].
  apply reaches_start. destruct k; check.
Qed.

(** Slr stops there, Clr shifts *)
Lemma assign_differ : travel 5 (assign_conf SLR 2) "=" = Val (assign_conf SLR 2, Err (ConflictErr (Reduce "R" (["L"], 0)) (Shift 8))) /\
  hands_on (assign_t LALR) /\ grounded assign "Z" "$" (assign_t LALR) /\
  travel 5 (assign_conf CLR 2) "=" = Val (assign_conf CLR 3, Ok) /\ map tk_ty (d_items (assign_conf CLR 3)) = ["="; "L"].
Proof.
  destruct assign_facts as (W & Hg & Hm & He & Hk & Hc & _). split; [check|]. split; [eapply carries_hands_on; eauto|].
  split; [apply (grounded_ok _ _ _ _ W 20 8); check|]. split; check.
Qed.

(** the state it is in then holds the items S -> L . = R and R -> L . *)
Lemma assign_items : stack_path (assign_t CLR) [2; 0] ["L"] /\ item_in (assign_t CLR) 2 "S" 0 ["L"] ["="; "R"] /\ item_look (assign_t CLR) 2 "R" 0 ["L"] [] "$".
Proof.
  split; [|split].
  - constructor; [constructor|]. eexists. eexists. split; [vm_compute; reflexivity|]. split; [vm_compute; reflexivity|]. right. vm_compute. reflexivity.
  - eexists. exists (mkPos "S" (["L"; "="; "R"], 0) 1 ["$"]). split; [vm_compute; reflexivity|]. split; [simpl; auto|]. cbn. auto.
  - eexists. exists (mkPos "R" (["L"], 0) 1 ["$"]). split; [vm_compute; reflexivity|]. split; [simpl; auto|]. cbn. auto.
Qed.
