(** Vocabulary: the order of positions (C139). *)
From Coq Require Import List.
From Verif Require Import BTree Model.
Import ListNotations.

Section Sp.
Context {T : Type} {OT : Ord T}.

Definition lower (x y : T) : Prop := cmp x y = Lt.
(** as words in a dictionary *)
Inductive dictionary : list T -> list T -> Prop :=
| dict_nil x l : dictionary [] (x :: l)
| dict_head x y l m : lower x y -> dictionary (x :: l) (y :: m)
| dict_tail x l m : dictionary l m -> dictionary (x :: l) (x :: m).

(** by the rule, then by the right-hand side, its number, the place of the dot, and last the lookaheads *)
Definition before (p q : position T) : Prop :=
  lower (p_rule p) (p_rule q) \/
  (p_rule p = p_rule q /\ (dictionary (fst (p_seq p)) (fst (p_seq q)) \/
   (fst (p_seq p) = fst (p_seq q) /\ (snd (p_seq p) < snd (p_seq q) \/
    (snd (p_seq p) = snd (p_seq q) /\ (p_point p < p_point q \/
     (p_point p = p_point q /\ dictionary (p_look p) (p_look q)))))))).
End Sp.
