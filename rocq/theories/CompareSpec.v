(** Vocabulary for comparing the methods on one input (C124). *)
From Verif Require Import BTree Model Interface.

(** [k1] tells no more cases apart than [k2] *)
Definition weaker (k1 k2 : method) : Prop :=
  match k1, k2 with SLR, _ | LALR, CLR | LALR, LALR | CLR, CLR => True | _, _ => False end.

(** the same value or the same error, but for the symbols expected *)
Definition agree {T} {OT : Ord T} {M} (r r' : presult T M) : Prop :=
  match r, r' with PErr (UnexpectedToken x _), PErr (UnexpectedToken y _) => x = y | _, _ => r = r' end.
