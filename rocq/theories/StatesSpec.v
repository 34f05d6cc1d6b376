(** Vocabulary for the states of a table and for [Tabler::kernels] (C106). *)
From Coq Require Import List.
From Verif Require Import BTree Model Spec Interface.
Import ListNotations.

Section Sp.
Context {T : Type} {OT : Ord T}.

(** two states with the same dotted alternatives, whatever their lookaheads *)
Definition same_core (row row' : state T) : Prop :=
  forall A pr i, (exists l, In (mkPos A pr i l) row) <-> (exists l, In (mkPos A pr i l) row').

(** [kernel] is what the positions of [row] with a dot past the beginning are: their dotted alternatives for
    Lalr, the positions themselves for Slr and Clr *)
Definition kernel_of (k : method) (kernel row : state T) : Prop :=
  (forall A pr i, (exists l, In (mkPos A pr i l) kernel) <-> 0 < i /\ exists l, In (mkPos A pr i l) row) /\
  (k <> LALR -> forall pos, In pos kernel <-> In pos row /\ 0 < p_point pos).
End Sp.
