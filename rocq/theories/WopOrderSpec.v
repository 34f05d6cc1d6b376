(** What stays the same when the names of a hash set are visited in another order. *)
From Coq Require Import List Bool Arith String.
From Verif Require Import BTree Model Strings Wop WopSpec.
Import ListNotations.

(** two emitted functions with the same code block, binding each name by the same statements in the
    same order *)
Definition same_function (f f' : list binding * string) : Prop :=
  snd f = snd f' /\ forall n, filter (fun b => String.eqb (bd_name b) n) (fst f) = filter (fun b => String.eqb (bd_name b) n) (fst f').
(** the same imports, token aliases and grammar, and for each rule as many functions, the same pairwise *)
Definition same_output (text : span -> string) (b b' : builder) : Prop :=
  b_imports b = b_imports b' /\ b_aliases b = b_aliases b' /\ dump_grammar text b = dump_grammar text b' /\
  exists rs rs', dump_reductor text b = Val rs /\ dump_reductor text b' = Val rs' /\
    Forall2 (fun e e' => fst e = fst e' /\ Forall2 same_function (snd e) (snd e')) rs rs'.
