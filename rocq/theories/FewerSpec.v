(** Vocabulary: a grammar with some of another's alternatives (C135). *)
From Coq Require Import List.
From Verif Require Import BTree Model Spec.
Import ListNotations.

Section FewerSpec.
Context {T : Type} {OT : Ord T}.

(** The alternatives of [r1] are alternatives of [r2], different ones different ones ([f] renumbers them), the first of the start symbol
    among them; and what is a terminal in them stays one. Rules of [r2] may be gone altogether if nothing in [r1] mentions them. *)
Record fewer_by (f : T -> nat -> nat) (r1 r2 : rulemap T) (start : T) : Prop := {
  fw_prod : forall A i rhs, prod_at r1 A i rhs -> prod_at r2 A (f A i) rhs;
  fw_inj : forall A i j rhs rhs', prod_at r1 A i rhs -> prod_at r1 A j rhs' -> f A i = f A j -> i = j;
  fw_start : f start 0 = 0;
  fw_term : forall A i rhs x, prod_at r1 A i rhs -> In x rhs -> (term r1 x <-> term r2 x)
}.

Definition fewer (r1 r2 : rulemap T) (start : T) : Prop := exists f, fewer_by f r1 r2 start.

(** the alternatives kept keep their functions *)
Definition same_functions {M} (f : T -> nat -> nat) (r1 : rulemap T) (maps1 maps2 : reductmap T M) : Prop :=
  forall A i rhs fs h, prod_at r1 A i rhs -> bm_get A maps1 = Some fs -> nth_error fs i = Some h ->
  exists fs2, bm_get A maps2 = Some fs2 /\ nth_error fs2 (f A i) = Some h.
End FewerSpec.
