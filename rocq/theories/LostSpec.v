(** Which lookaheads Lalr must not lose (C132). *)
From Coq Require Import List.
From Verif Require Import BTree Model Spec Interface LR1Spec ValidSpec.
Import ListNotations.

Section LostSpec.
Context {T : Type} {OT : Ord T}.

(** the completed items of the table have the lookaheads the LALR(1) construction hands to them (it may have more, and other
    items may lack some) *)
Definition keeps (rules : rulemap T) (start eof : T) (t : tabler T) : Prop :=
  forall q A i u x, passed rules start eof t q A i u [] x -> item_look t q A i u [] x.
End LostSpec.
