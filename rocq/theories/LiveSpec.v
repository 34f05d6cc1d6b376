(** Vocabulary for cells that are needed (C127) *)
From Coq Require Import List Bool Arith.
From Verif Require Import BTree Model.
Import ListNotations.

Section LiveSpec.
Context {T : Type} {OT : Ord T}.

(** the table [t'] is [t] without the cell for [x] in row [q] *)
Definition leaves_out (q : nat) (x : T) (t t' : tabler T) : Prop :=
  t_grammar t' = t_grammar t /\ length (t_actions t') = length (t_actions t) /\
  forall p row, nth_error (t_actions t) p = Some row -> exists row', nth_error (t_actions t') p = Some row' /\
    forall y, bm_get y row' = if (Nat.eqb p q && eqb y x)%bool then None else bm_get y row.
End LiveSpec.
