(** Vocabulary: the alternatives a generator meets on its way from the start symbol (C134). *)
From Coq Require Import List.
From Verif Require Import BTree Model Spec Interface.
Import ListNotations.

Section UsedSpec.
Context {T : Type} {OT : Ord T}.
Variables (rules : rulemap T) (start : T).

(** the first alternative of the start symbol, and every alternative of a nonterminal that occurs in one that is met *)
Inductive met : T -> nat -> list T -> Prop :=
| met_start rhs : prod_at rules start 0 rhs -> met start 0 rhs
| met_next A i u B v j rhs : met A i (u ++ B :: v) -> prod_at rules B j rhs -> met B j rhs.

(** the terminals that can follow an alternative that is met: FOLLOW, alternative by alternative, without those that are not met *)
Inductive met_look (eof : T) : T -> nat -> list T -> T -> Prop :=
| met_eof rhs : prod_at rules start 0 rhs -> met_look eof start 0 rhs eof
| met_first A i u B Y v j rhs x : met A i (u ++ B :: Y :: v) -> first_spec rules Y x -> prod_at rules B j rhs -> met_look eof B j rhs x
| met_last A i u B j rhs x : met_look eof A i (u ++ [B]) x -> prod_at rules B j rhs -> met_look eof B j rhs x.

(** no two alternatives of one rule that are met are the same *)
Definition no_met_twins : Prop := forall A i j rhs, met A i rhs -> met A j rhs -> i = j.
End UsedSpec.

(** ** Rows of a table that do the same once states with equal rows count as one state (C82) *)
Section AsIf.
Context {T : Type} {OT : Ord T}.

Inductive as_if (t : tabler T) : action T -> action T -> Prop :=
| as_shift n m : nth_error (t_actions t) n = nth_error (t_actions t) m -> as_if t (Shift n) (Shift m)
| as_goto n m : nth_error (t_actions t) n = nth_error (t_actions t) m -> as_if t (Goto n) (Goto m)
| as_reduce A pr : as_if t (Reduce A pr) (Reduce A pr)
| as_acc : as_if t Acc Acc
| as_conflict a a' b b' : as_if t a a' -> as_if t b b' -> as_if t (Conflict a b) (Conflict a' b').

(** two rows with entries in the same columns, which do the same in this sense *)
Definition rows_as_if (t : tabler T) (r r' : bmap T (action T)) : Prop :=
  forall x, match bm_get x r, bm_get x r' with Some a, Some b => as_if t a b | None, None => True | _, _ => False end.
End AsIf.
