(** Vocabulary: states with the same LR(1) items (C130). *)
From Coq Require Import List.
From Verif Require Import BTree Model Spec Interface LR1Spec ValidSpec.
Import ListNotations.

Section CanonSpec.
Context {T : Type} {OT : Ord T}.

(** two states that hold the same items, each with the same lookaheads in all (in however many positions) *)
Definition same_lr1 (t : tabler T) (q q' : nat) : Prop :=
  (forall A i u v, item_in t q A i u v <-> item_in t q' A i u v) /\
  (forall A i u v x, item_look t q A i u v x <-> item_look t q' A i u v x).

(** two prefixes after which the same LR(1) items are valid: they lead to the same state of the canonical LR(1) collection *)
Definition same_valid (rules : rulemap T) (start eof : T) (pre pre' : list T) : Prop :=
  (forall A i u v, valid_after rules start pre A i u v <-> valid_after rules start pre' A i u v) /\
  (forall A i u v x, valid_look rules start eof pre A i u v x <-> valid_look rules start eof pre' A i u v x).

(** actions that do the same, but for the number of the state they go to *)
Inductive alike (t : tabler T) : action T -> action T -> Prop :=
| alike_shift n n' : same_lr1 t n n' -> alike t (Shift n) (Shift n')
| alike_goto n n' : same_lr1 t n n' -> alike t (Goto n) (Goto n')
| alike_reduce A pr : alike t (Reduce A pr) (Reduce A pr)
| alike_acc : alike t Acc Acc.

(** whatever comes right after a nonterminal begins with one terminal, always the same *)
Definition one_first (rules : rulemap T) : Prop :=
  forall A i u B Y v, prod_at rules A i (u ++ B :: Y :: v) -> nonterm rules B -> exists x, forall y, first_spec rules Y y <-> y = x.
End CanonSpec.
