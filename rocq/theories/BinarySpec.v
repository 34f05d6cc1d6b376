(** What the [lrp] binary is to do with a line *)
From Coq Require Import List Ascii String NArith.
Import ListNotations.
Local Open Scope char_scope.

Definition space (c : ascii) : Prop := In c ["009"; "010"; "011"; "012"; "013"; " "].
(** [w] is [line] without the white space at both ends *)
Definition trimmed (line w : list ascii) : Prop :=
  exists a b, line = a ++ w ++ b /\ Forall space a /\ Forall space b /\
    (forall c w', w = c :: w' -> ~ space c) /\ (forall c w', w = w' ++ [c] -> ~ space c).

Definition known (c : ascii) : Prop := In c ["["; "]"; "("; ")"; "{"; "}"; "d"; "c"].
Inductive bracket : ascii -> ascii -> Prop :=
| round_ : bracket "(" ")"
| square : bracket "[" "]"
| curly : bracket "{" "}".
(** brackets inside brackets *)
Inductive nested : list ascii -> Prop :=
| nested_one o c : bracket o c -> nested [o; c]
| nested_in o w c : bracket o c -> nested w -> nested (o :: w ++ [c]).
