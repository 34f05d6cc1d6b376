(** What tokens a source text consists of. *)
From Coq Require Import List Bool Arith Ascii String.
From Verif Require Import BTree Model Wop WopSpec WopLex.
Import ListNotations.
Local Open Scope list_scope.
Local Notation len := String.length.
Local Infix "+++" := String.append (right associativity, at level 60).

Section Tokens.
Variable lg : logos.
Local Notation lexicon := (lexicon lg).

(** nothing matches at the start of [s] *)
Definition stuck (s : string) : Prop := forall k r w s', In (k, r) lexicon -> s = w +++ s' -> ~ matches r w.
(** [w] is the token at the start of [w +++ s], of the entry [k]: nothing longer matches, and no
    entry of higher priority matches [w] *)
Definition token_at (k : option sym) (w s : string) : Prop :=
  exists l1 r l2, lexicon = l1 ++ (k, r) :: l2 /\ matches r w /\
    (forall k' r' w' s', In (k', r') lexicon -> w +++ s = w' +++ s' -> matches r' w' -> len w' <= len w) /\
    (forall k' r', In (k', r') l1 -> ~ matches r' w).

(** [ts] are the tokens of the text [s] with [pos] bytes before it *)
Inductive lexes : nat -> string -> list lexeme -> Prop :=
| lexes_end pos : lexes pos "" []
| lexes_token pos x w s ts : token_at (Some x) w s -> lexes (pos + len w) s ts -> lexes pos (w +++ s) ((x, (pos, pos + len w)) :: ts)
| lexes_skip pos w s ts : token_at None w s -> lexes (pos + len w) s ts -> lexes pos (w +++ s) ts
| lexes_error pos w s ts : w <> ""%string -> stuck (w +++ s) -> lexes (pos + len w) s ts -> lexes pos (w +++ s) ((SymError, (pos, pos + len w)) :: ts).
End Tokens.

(** the tokens lie one behind the other within [n] bytes, none empty *)
Definition laid_out (n : nat) (ts : list lexeme) : Prop :=
  ForallOrdPairs (fun a b => snd (snd a) <= fst (snd b)) ts /\ Forall (fun t => fst (snd t) < snd (snd t) <= n) ts.

(** [s] contains [t] *)
Definition contains (s t : string) : Prop := exists a b, s = a +++ t +++ b.
(** [k] closing braces *)
Fixpoint braces (k : nat) : string := match k with 0 => ""%string | S n => String "}" (braces n) end.
