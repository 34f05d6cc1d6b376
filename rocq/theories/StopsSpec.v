(** What decides whether the two pointer-chasing loops of [Tabler::new] stop (C112).

    A FIRST (FOLLOW) table starts out with, in the set of each nonterminal, terminals and other nonterminals that stand
    for "everything in that one's set". Every round of the loop replaces each such pointer by the contents of the set it
    points to, and drops what points back to its owner. So after [k] rounds the pointers are walks of exactly [2^k]
    steps, all cut off where they close upon the nonterminal they left from at a power of two. Nothing here mentions
    tables: the relation is read off the grammar. *)
From Coq Require Import Arith.
From Verif Require Import BTree Model Spec Interface.

Section Rounds.
Context {T : Type}.

(** the pointers after [k] rounds, when [R] is what they were at first *)
Fixpoint rounds (R : T -> T -> Prop) (k : nat) (A B : T) : Prop :=
  match k with
  | 0 => R A B
  | S k' => A <> B /\ exists C, rounds R k' A C /\ rounds R k' C B
  end.

(** some round changes no pointer any more *)
Definition settles (R : T -> T -> Prop) : Prop := exists k, forall A B, rounds R k A B <-> rounds R (S k) A B.
(** some round leaves no pointer at all *)
Definition vanishes (R : T -> T -> Prop) : Prop := exists k, forall A B, ~ rounds R k A B.
(** [B] is [n] steps from [A] *)
Fixpoint steps (R : T -> T -> Prop) (n : nat) (A B : T) : Prop :=
  match n with
  | 0 => A = B
  | S n' => exists C, R A C /\ steps R n' C B
  end.
(** [A] is on a cycle, which takes [n] steps to come round *)
Definition loop_of (R : T -> T -> Prop) (n : nat) (A : T) : Prop :=
  1 <= n /\ steps R n A A /\ forall m, 1 <= m < n -> ~ steps R m A A.
(** nothing has two successors *)
Definition functional (R : T -> T -> Prop) : Prop := forall A B C, R A B -> R A C -> B = C.
Definition power_of_two (n : nat) : Prop := exists k, n = 2 ^ k.
(** from some round on, [A] points to [B] *)
Definition lasting (R : T -> T -> Prop) (A B : T) : Prop := exists k, forall n, k <= n -> rounds R n A B.
End Rounds.

Section Stops.
Context {T : Type} {OT : Ord T}.

(** the pointers the FOLLOW loop starts with in a release build: [A] ends a right-hand side of [B], or [A] stands before
    an [X] whose FIRST set was left with the nonterminal [B] in it *)
Definition follow_ptr (rules : rulemap T) (A B : T) : Prop :=
  right_corner rules B A \/
  exists C i u X v, prod_at rules C i (u ++ A :: X :: v) /\ nonterm rules A /\ nonterm rules X /\
    lasting (left_corner rules) X B.
End Stops.
