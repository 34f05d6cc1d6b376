(** Grammars for C119. *)
From Coq Require Import List Bool Arith String.
From Verif Require Import BTree Model Strings Spec SpecP Interface Check Examples Refute Refute2 UniqueEx LR1Spec DilemmaSpec HandleF Dilemma.
Import ListNotations.
Local Open Scope string_scope.
Local Open Scope list_scope.

Lemma plus_productive : productive plus.
Proof. apply (productive_ok plus ltac:(apply grammar_map_wf) ["E"; "Z"]). check. Qed.

Lemma plus_fails : fails (plus_t CLR) (to_tokens ["n"; "+"; "n"] ++ to_tokens ["+"; "n"]) (empty_map plus_g) (to_tokens ["+"; "n"])
  (ConflictErr (Shift 3) (Reduce "E" (["E"; "+"; "E"], 0))).
Proof. do 2 eexists. exists 40. split; [vm_compute; reflexivity|]. split; vm_compute; reflexivity. Qed.

Lemma assign_fails : fails (assign_t SLR) (to_tokens ["i"] ++ to_tokens ["="; "i"]) (empty_map assign_g) (to_tokens ["="; "i"])
  (ConflictErr (Reduce "R" (["L"], 0)) (Shift 8)).
Proof. do 2 eexists. exists 40. split; [vm_compute; reflexivity|]. split; vm_compute; reflexivity. Qed.

Lemma assign_clr : conflicts (t_actions (assign_t CLR)) = []. Proof. check. Qed.
Lemma assign_decided pre t : ~ dilemma assign "Z" "$" pre t.
Proof.
  destruct assign_facts as (W & Hg & Hm & He & _). apply LR1_no_dilemma.
  apply (proj1 (clr_LR1 true "Z" "$" assign assign_g W Hg _ (Hm CLR) He (or_introl eq_refl)) assign_clr).
Qed.
