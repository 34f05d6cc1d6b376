(** Vocabulary for the texts: what a text must not leave open. *)
From Coq Require Import List Ascii String Arith.
From Verif Require Import BTree Model Spec Interface.
Import ListNotations.
Local Open Scope string_scope.
Local Open Scope list_scope.

(** the text ends here, or goes on with white space or punctuation *)
Definition stops (s : string) : Prop :=
  match s with
  | EmptyString => True
  | String c _ => In c [" "; ","; "."; "]"; "}"]%char
  end.

(** The texts of symbols can be told apart wherever one stands before white space or punctuation, and none
    looks like the beginning of something else. *)
Definition legible {T : Type} (show : T -> string) : Prop :=
  (forall x y s t, stops s -> stops t -> (show x ++ s)%string = (show y ++ t)%string -> x = y) /\
  forall x, match show x with EmptyString => False | String c _ => ~ In c [" "; "."; "]"; "{"; "}"]%char end.

(** no alternative of a rule is written twice *)
Definition no_twins {T : Type} {OT : Ord T} (rules : rulemap T) : Prop :=
  forall A i j rhs, prod_at rules A i rhs -> prod_at rules A j rhs -> i = j.

(** a stack as it is printed: states and symbols in turn, a state at both ends *)
Inductive in_turn {T : Type} : list (nat + T) -> Prop :=
| turn_one q : in_turn [inl q]
| turn_more q x l : in_turn l -> in_turn (inl q :: inr x :: l).
