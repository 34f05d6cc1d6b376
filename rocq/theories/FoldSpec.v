(** Vocabulary: a table folded along a map of its states (C136). *)
From Coq Require Import List.
From Verif Require Import BTree Model Spec Interface StatesSpec.
Import ListNotations.

Section FoldSpec.
Context {T : Type} {OT : Ord T}.

(** an action with its target renamed *)
Definition along (h : nat -> nat) (a : action T) : action T :=
  match a with Shift n => Shift (h n) | Goto n => Goto (h n) | _ => a end.

(** Every state [q] of [tc] is put into the state [h q] of [tl], which has the same items; every state of [tl] gets some; and a cell of [tl] holds
    what the cells in the same column of the states put into its state hold, and nothing else *)
Record folded (h : nat -> nat) (tc tl : tabler T) : Prop := {
  fo_start : h 0 = 0;
  fo_core : forall q row, nth_error (t_states tc) q = Some row -> exists row', nth_error (t_states tl) (h q) = Some row' /\ same_core row row';
  fo_onto : forall m, m < length (t_states tl) -> exists q, q < length (t_states tc) /\ h q = m;
  fo_cell : forall m row x b, nth_error (t_actions tl) m = Some row ->
    ((exists a, bm_get x row = Some a /\ inside b a) <->
     exists q row' a' b', h q = m /\ nth_error (t_actions tc) q = Some row' /\ bm_get x row' = Some a' /\ inside b' a' /\ b = along h b')
}.
End FoldSpec.
