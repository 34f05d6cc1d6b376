(** Vocabulary: blanks, names and signs in wop's sources, by their characters (C138). *)
From Coq Require Import List Arith Ascii String.
From Verif Require Import BTree Model Wop WopSpec WopLex WopLexSpec.
Import ListNotations.
Local Open Scope list_scope.
Local Notation len := String.length.
Local Infix "+++" := String.append (right associativity, at level 60).
Local Notation code := nat_of_ascii.

(** space, tab, newline, carriage return *)
Definition blank (c : ascii) : Prop := In (code c) [32; 9; 10; 13].
(** a name starts with a letter or an underscore and goes on with those and digits *)
Definition name_start (c : ascii) : Prop := 97 <= code c <= 122 \/ 65 <= code c <= 90 \/ code c = 95.
Definition name_part (c : ascii) : Prop := name_start c \/ 48 <= code c <= 57.

(** all characters of [s] have [P] *)
Fixpoint every (P : ascii -> Prop) (s : string) : Prop := match s with EmptyString => True | String c s' => P c /\ every P s' end.
(** [s] is empty or starts with a character that has [P] *)
Definition next (P : ascii -> Prop) (s : string) : Prop := match s with EmptyString => True | String c _ => P c end.

Definition name (w : string) : Prop := exists c v, w = String c v /\ name_start c /\ every name_part v.
(** what a name is taken for *)
Definition kind (w : string) : sym := if String.eqb w "alias" then AliasWord else if String.eqb w "use" then UseWord else Ident.

(** the signs *)
Definition signs : list (sym * string) :=
  [(Assign, "="); (Pipe, "|"); (OpenParen, "("); (CloseParen, ")"); (Sc, ";"); (PathAccess, "::"); (TwoDots, ":"); (Glob, "*"); (Optional, "?"); (Clone, "&")]%string.
(** the characters tokens, comments and code blocks start with, other than names *)
Definition openers : list ascii := ["="; "|"; "("; ")"; ";"; ":"; "*"; "?"; "&"; """"; "/"; "-"]%char.

(** what [\w] matches beyond ASCII is written in bytes beyond ASCII, as UTF-8 has it *)
Definition outside (lg : logos) : Prop := Forall (every (fun c => 128 <= code c)) (wide lg).

(** tokens [d] bytes further on *)
Definition later (d : nat) (ts : list lexeme) : list lexeme := map (fun t => (fst t, (d + fst (snd t), d + snd (snd t)))) ts.
