(** When the symbols read so far and the next one do not decide the next step (C119); no reference
    to the generator. *)
From Coq Require Import List.
From Verif Require Import BTree Model Spec LR1Spec.
Import ListNotations.

(** After [pre], with [t] next, there are two possibilities: in one right sentential form the last
    step rewrote [A] to [rhs], which ends [pre]; in another it rewrote [B] to [rhs'], which does not
    end before [pre] does, and ends later or is another production.  What follows [pre] is made of
    terminals and begins with [t] (nothing follows: [eof]) in both. *)
Definition dilemma {T} {OT : Ord T} (rules : rulemap T) (start eof : T) (pre : list T) (t : T) : Prop :=
  exists a A i rhs w b B j rhs' z x,
    rms rules [start] (a ++ A :: w) /\ prod_at rules A i rhs /\ Forall (term rules) w /\ pre = a ++ rhs /\ next eof w = t /\
    rms rules [start] (b ++ B :: x) /\ prod_at rules B j rhs' /\ Forall (term rules) (z ++ x) /\ b ++ rhs' = pre ++ z /\ next eof (z ++ x) = t /\
    ~ (z = [] /\ A = B /\ i = j).
