(** Vocabulary for the runs that do not return (C125) *)
From Coq Require Import List.
From Coq Require Import Relation_Operators.
From Verif Require Import BTree Model Spec Interface Trace TraceSpec.
Import ListNotations.

Section CircleSpec.
Context {T : Type} {OT : Ord T} {M : Type}.

(** [n] rounds of the driver's loop lead from [d] to [d'] *)
Inductive rounds : nat -> dfa T M -> dfa T M -> Prop :=
| rounds_0 d : rounds 0 d d
| rounds_S n d d1 d2 : round d d1 -> rounds n d1 d2 -> rounds (S n) d d2.

(** [d2] has the states and the symbols of [d1] on its stack and the tokens of [d1] still to come,
    and has accepted if [d1] has; the values of the items may differ *)
Definition same_place (d1 d2 : dfa T M) : Prop :=
  d_states d2 = d_states d1 /\ map tk_ty (d_items d2) = map tk_ty (d_items d1) /\ d_buffer d2 = d_buffer d1 /\ d_finished d2 = d_finished d1.

(** above state [q], with [x] coming next, the table reduces the symbol [A] (state [n] on top) by itself to [B] (state [m] on top) *)
Definition unit_step (t : tabler T) (q : nat) (x : T) (s s' : nat * T) : Prop :=
  let '(n, A) := s in let '(m, B) := s' in
  exists i, table_says t n x (Some (Reduce B ([A], i))) /\ table_says t q B (Some (Goto m)).

(** ... and comes back to it *)
Definition spins (t : tabler T) (q : nat) (x : T) (s : nat * T) : Prop := clos_trans _ (unit_step t q x) s s.
End CircleSpec.
