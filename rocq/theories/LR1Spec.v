(** Textbook classes of grammars, independent of the generator: rightmost derivations,
    LR(1) and SLR(1).  A grammar is referred to only through [prod_at] and [term]. *)
From Coq Require Import List.
From Verif Require Import BTree Model Spec.
Import ListNotations.

Section LR1Spec.
Context {T : Type} {OT : Ord T}.
Variable rules : rulemap T.

(** one rightmost step: only terminals stand to the right of the rewritten nonterminal *)
Inductive rm : list T -> list T -> Prop :=
| rm_intro a A i rhs w : prod_at rules A i rhs -> Forall (term rules) w -> rm (a ++ A :: w) (a ++ rhs ++ w).

(** any number of rightmost steps *)
Inductive rms (u : list T) : list T -> Prop :=
| rms_refl : rms u u
| rms_snoc v w : rms u v -> rm v w -> rms u w.

Variables (S eof : T).

(** the symbol after the handle: the first symbol of what follows, [eof] at the end *)
Definition next (w : list T) : T := hd eof w.

(** LR(1) (Knuth): in a right sentential form [a rhs w], the handle [A -> rhs] after [a] is
    determined by [a rhs] and the next symbol.  If [a rhs y] is a right sentential form too, its
    last step rewriting [B], and [y] begins like [w], then it is the same production at the same
    place. *)
Definition LR1 : Prop := forall a A i rhs w b B j rhs' x y,
  rms [S] (a ++ A :: w) -> prod_at rules A i rhs -> Forall (term rules) w ->
  rms [S] (b ++ B :: x) -> prod_at rules B j rhs' -> Forall (term rules) x ->
  b ++ rhs' ++ x = a ++ rhs ++ y -> Forall (term rules) y -> next w = next y ->
  a = b /\ A = B /\ i = j /\ x = y.

(** the [i]-th production [A -> u v], read up to between [u] and [v], is possible after [pre] *)
Definition valid_after (pre : list T) (A : T) (i : nat) (u v : list T) : Prop :=
  prod_at rules A i (u ++ v) /\ exists a w, rms [S] (a ++ A :: w) /\ Forall (term rules) w /\ pre = a ++ u.

(** SLR(1): after no viable prefix do two different completed productions share a FOLLOW symbol,
    nor does a symbol that can be read next belong to the FOLLOW of a completed production. *)
Definition SLR1 : Prop :=
  (forall pre A i u B j v t, valid_after pre A i u [] -> valid_after pre B j v [] ->
     follow_rules rules S eof A t -> follow_rules rules S eof B t -> term rules t -> A = B /\ i = j) /\
  (forall pre A i u B j v t v', valid_after pre A i u [] -> valid_after pre B j v (t :: v') -> term rules t ->
     ~ follow_rules rules S eof A t).

(** two prefixes lead to the same LR(0) state: the same items are possible after both *)
Definition same_items (pre pre' : list T) : Prop :=
  forall A i u v, valid_after pre A i u v <-> valid_after pre' A i u v.

(** [t] can come next when the [i]-th production [A -> u] is completed after [pre], or after some
    prefix that leads to the same LR(0) state *)
Definition merged_look (pre : list T) (A : T) (i : nat) (u : list T) (t : T) : Prop :=
  prod_at rules A i u /\ exists a w, same_items pre (a ++ u) /\ rms [S] (a ++ A :: w) /\ Forall (term rules) w /\ next w = t.

(** LALR(1): LR(1) lookaheads, merged over the prefixes of each LR(0) state, decide *)
Definition LALR1 : Prop :=
  (forall pre A i u B j v t, merged_look pre A i u t -> merged_look pre B j v t -> A = B /\ i = j) /\
  (forall pre A i u B j v t v', merged_look pre A i u t -> valid_after pre B j v (t :: v') -> ~ term rules t).
End LR1Spec.
