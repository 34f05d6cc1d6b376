(** Vocabulary for the height of the stack (C126) *)
From Coq Require Import List.
From Verif Require Import BTree Model Spec.
Import ListNotations.

Section HeightSpec.
Context {T : Type} {OT : Ord T}.

(** from [A] one gets to [B] by choosing a symbol of a right-hand side again and again; [u] is what
    stands to its left on the way *)
Inductive down (rules : rulemap T) : T -> list T -> T -> Prop :=
| down_one A i u B v : prod_at rules A i (u ++ B :: v) -> down rules A u B
| down_more A i u B v w C : prod_at rules A i (u ++ B :: v) -> down rules B w C -> down rules A (u ++ w) C.

(** nothing but left recursion, as far as the start symbol reaches *)
Definition left_only (rules : rulemap T) (start : T) : Prop :=
  forall A u, A = start \/ (exists a, down rules start a A) -> down rules A u A -> u = [].

(** right-hand sides have at most [n] symbols *)
Definition widest (rules : rulemap T) (n : nat) : Prop := forall A i rhs, prod_at rules A i rhs -> length rhs <= n.

(** symbols can be ranked so that every nonterminal of a right-hand side ranks below the left-hand
    side, or at most as high if it comes first *)
Definition left_ranked (rules : rulemap T) (rank : T -> nat) : Prop := forall A i u B v, prod_at rules A i (u ++ B :: v) -> nonterm rules B ->
  rank B < rank A \/ (u = [] /\ rank B <= rank A).
End HeightSpec.
