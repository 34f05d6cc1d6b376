(** Concrete cases for C136 *)
From Coq Require Import List Bool Arith Lia String.
From Verif Require Import BTree Model Strings Grammars Spec SpecP Interface Check Examples Refute Refute4 LR1Spec ValidSpec Pass PassB PassEx FewerEx FoldSpec.
Import ListNotations.
Local Open Scope string_scope.
Local Open Scope list_scope.
Local Notation length := List.length.

(** [mix1]: two of the fourteen states of Clr are put into one, and their reductions collide *)
Lemma mix1_looks : hands_on (mix1_t LALR) /\ grounded mix1 "Z" "$" (mix1_t LALR).
Proof.
  split; [eapply carries_hands_on; [exact mix1_wf|exact mix1_gE|apply mix1_makes|apply carries_ok; check]|].
  apply (grounded_ok mix1 "Z" "$" _ mix1_wf 20 8). check.
Qed.
Lemma mix1_clr : conflicts (t_actions (mix1_t CLR)) = [] /\ length (t_states (mix1_t CLR)) = 14 /\ length (t_states (mix1_t LALR)) = 13.
Proof. repeat split; check. Qed.
Lemma mix1_cell : exists row, nth_error (t_actions (mix1_t LALR)) 6 = Some row /\ bm_get "d" row = Some (Conflict (Reduce "A" (["c"], 0)) (Reduce "B" (["c"], 0))).
Proof. eexists. split; check. Qed.

(** [amb1]: a shift meets a reduction *)
Lemma amb1_looks : hands_on (amb1_t LALR) /\ grounded amb1 "Z" "$" (amb1_t LALR).
Proof.
  split; [eapply carries_hands_on; [exact amb1_wf|exact amb1_gE|apply amb1_makes|apply carries_ok; check]|].
  apply (grounded_ok amb1 "Z" "$" _ amb1_wf 20 8). check.
Qed.
Lemma amb1_cell : exists row, nth_error (t_actions (amb1_t LALR)) 4 = Some row /\ bm_get "+" row = Some (Conflict (Shift 3) (Reduce "E" (["E"; "+"; "E"], 0))).
Proof. eexists. split; check. Qed.

(** [spur] (C90, C123): one of its lookaheads has not been handed out, and a cell of Lalr's table holds two reductions although no cell of Clr's
    holds more than one action and no two states of Clr are put together whose reductions could collide *)
Lemma spur_conflict : ~ (hands_on spur_t /\ grounded spur "Z" "$" spur_t) /\ LALR1 spur "Z" "$" /\ conflicts (t_actions (tab CLR true 100 spur_g)) = [] /\ conflicts (t_actions spur_t) <> [].
Proof. split; [exact spur_loose|]. split; [exact spur_LALR1|]. split; [check|]. intros E. vm_compute in E. discriminate E. Qed.
