(** A grammar under other names and with its alternatives in another order, with conflicts under Slr (C131). *)
From Coq Require Import List Bool Arith Lia String.
From Verif Require Import BTree Model Strings Base Grammars Spec SpecP Interface Wrap Check Examples Refute LR1Spec ValidSpec HandleF RenameSpec Pass PassB Refute2 Refute4 Refute5 ValidEx.
Import ListNotations.
Local Open Scope string_scope.
Local Open Scope list_scope.
Local Notation length := List.length.

(** Z -> A; A -> R | B ~ R; B -> * R | j; R -> B *)
Definition assign_names := [("S", "A"); ("L", "B"); ("=", "~"); ("i", "j")].
Definition assign_alts (A : string) (i : nat) : nat := if eqb A "S" then 1 - i else i.
Definition assign' := grammar_map [("Z", [["A"]]); ("A", [["R"]; ["B"; "~"; "R"]]); ("B", [["*"; "R"]; ["j"]]); ("R", [["B"]])].
Definition assign'_g := gof "Z" assign' (calc_g true).
Definition assign'_t k := tab k true 60 assign'_g.
Lemma assign_renames : renames (swaps assign_names) assign_alts assign assign'.
Proof. renaming. Qed.
Lemma assign_same : same_reductors (swaps assign_names) assign_alts assign (empty_map assign_g) (empty_map assign'_g).
Proof.
  intros A i rhs H. apply (prods_in assign (proj1 assign_facts)) in H. vm_compute in H.
  repeat (destruct H as [[= <- <- <-]|H]; [do 4 eexists; split; [reflexivity|]; split; [reflexivity|]; split; [reflexivity|]; split; [reflexivity|]; reflexivity|]). destruct H.
Qed.
Lemma assign'_facts : wf_rules assign' /\ grammar_new true "Z" assign' "$" = Val assign'_g /\ (forall k, makes k true assign'_g (assign'_t k)).
Proof. split; [facts|]. split; [check|]. intros k. apply tab_makes; destruct k; check. Qed.
Lemma assign_exact : (hands_on (assign_t LALR) /\ grounded assign "Z" "$" (assign_t LALR)) /\ (hands_on (assign'_t LALR) /\ grounded assign' "Z" "$" (assign'_t LALR)).
Proof.
  split; [split; apply assign_differ|]. destruct assign'_facts as (W & Hg & Hm). split.
  - eapply carries_hands_on; eauto. apply carries_ok. check.
  - apply (grounded_ok _ _ _ _ W 20 8). check.
Qed.

(** Slr stops in a conflict at =; Clr and Lalr accept; the second i is an error, instead of it = or the end could come *)
Lemma assign_answers : 
  parses (assign_t SLR) assign_input (empty_map assign_g) (PErr (ConflictErr (Reduce "R" (["L"], 0)) (Shift 8))) /\
  (exists a b, parses (assign'_t SLR) (map (retok (swaps assign_names)) assign_input) (empty_map assign'_g) (PErr (ConflictErr a b))) /\
  parses (assign_t LALR) assign_input (empty_map assign_g) (POk tt) /\
  parses (assign'_t LALR) (map (retok (swaps assign_names)) assign_input) (empty_map assign'_g) (POk tt) /\
  parses (assign_t LALR) (to_tokens ["i"; "i"]) (empty_map assign_g) (PErr (UnexpectedToken "i" ["$"; "="])) /\
  parses (assign'_t LALR) (map (retok (swaps assign_names)) (to_tokens ["i"; "i"])) (empty_map assign'_g) (PErr (UnexpectedToken "j" ["$"; "~"])).
Proof.
  split; [exists 20; check|]. split; [eexists; eexists; exists 20; vm_compute; reflexivity|].
  split; [exists 20; check|]. split; [exists 20; check|]. split; exists 20; check.
Qed.
