(** wop's lexer: the regular expressions attached to [Sym], /repo/wop/src/lib.rs:41-107, matched
    the way the documentation of logos describes: the longest match wins, and of two matches of the
    same length the one with the higher priority (a literal beats [Ident]).  The code logos
    generates is not modelled.  Sources are strings of bytes, in UTF-8; which characters beyond ASCII
    [\w] matches is a parameter. *)
From Coq Require Import List Bool Arith Ascii String.
From Verif Require Import BTree Model Wop.
Import ListNotations.
Local Open Scope string_scope.
Local Open Scope list_scope.
Local Open Scope nat_scope.

(** ** Regular expressions *)
Inductive regex :=
| RNone | REps
| RChar (p : ascii -> bool)
| RSeq (r s : regex) | RAlt (r s : regex) | RStar (r : regex).

(** the language of an expression *)
Inductive matches : regex -> string -> Prop :=
| m_eps : matches REps ""
| m_char p c : p c = true -> matches (RChar p) (String c "")
| m_seq r s v w : matches r v -> matches s w -> matches (RSeq r s) (v ++ w)%string
| m_left r s w : matches r w -> matches (RAlt r s) w
| m_right r s w : matches s w -> matches (RAlt r s) w
| m_star0 r : matches (RStar r) ""
| m_star r v w : matches r v -> matches (RStar r) w -> matches (RStar r) (v ++ w)%string.

Fixpoint nullable (r : regex) : bool :=
  match r with
  | RNone | RChar _ => false
  | REps | RStar _ => true
  | RSeq r s => nullable r && nullable s
  | RAlt r s => nullable r || nullable s
  end.
(** concatenation and union, dropping what matches nothing *)
Definition seq' (r s : regex) : regex := match r with RNone => RNone | REps => s | _ => RSeq r s end.
Definition alt' (r s : regex) : regex := match r, s with RNone, _ => s | _, RNone => r | _, _ => RAlt r s end.
(** the rest of a match that starts with [c] *)
Fixpoint deriv (c : ascii) (r : regex) : regex :=
  match r with
  | RNone | REps => RNone
  | RChar p => if p c then REps else RNone
  | RSeq r s => if nullable r then alt' (seq' (deriv c r) s) (deriv c s) else seq' (deriv c r) s
  | RAlt r s => alt' (deriv c r) (deriv c s)
  | RStar r => seq' (deriv c r) (RStar r)
  end.
(** the length of the longest prefix of [s] matching [r] *)
Fixpoint longest (r : regex) (s : string) : option nat :=
  match r with
  | RNone => None
  | _ =>
    match s with
    | EmptyString => if nullable r then Some 0 else None
    | String c s' => match longest (deriv c r) s' with
      | Some n => Some (S n)
      | None => if nullable r then Some 0 else None
      end
    end
  end.

(** ** The expressions of [Sym] *)
Fixpoint lit (s : string) : regex := match s with EmptyString => REps | String c s' => RSeq (RChar (Ascii.eqb c)) (lit s') end.
Definition not_in (l : list ascii) (c : ascii) : bool := negb (existsb (Ascii.eqb c) l).
Definition between (a b c : ascii) : bool := (nat_of_ascii a <=? nat_of_ascii c) && (nat_of_ascii c <=? nat_of_ascii b).
Definition letter (c : ascii) : bool := between "a" "z" c || between "A" "Z" c || Ascii.eqb c "_".
Definition word (c : ascii) : bool := letter c || between "0" "9" c.
Definition quote : ascii := """".
Definition backslash : ascii := "\".
Definition lf : ascii := ascii_of_nat 10.
Definition cr : ascii := ascii_of_nat 13.
Definition tab : ascii := ascii_of_nat 9.

(** the choices logos makes: the encodings of the characters beyond ASCII that [\w] matches, and how many bytes, after the
    first, the [Error] token covers where nothing matches *)
Record logos := mkLogos { wide : list string; extent : string -> nat }.
(** one of [l] *)
Definition one_of (l : list string) : regex := fold_right (fun s r => RAlt (lit s) r) RNone l.
(** :78-79 *)
Definition re_ident (lg : logos) : regex := RSeq (RChar letter) (RStar (RAlt (RChar word) (one_of (wide lg)))).
(** :82-83 *)
Definition re_str : regex :=
  RSeq (RChar (Ascii.eqb quote)) (RSeq (RStar (RAlt (RChar (not_in [quote; backslash])) (RSeq (RChar (Ascii.eqb backslash)) (RChar (not_in [lf]))))) (RChar (Ascii.eqb quote))).
(** :86-87 *)
Definition re_block_comment : regex :=
  RSeq (lit "/*") (RSeq (RStar (RAlt (RChar (not_in ["*"%char])) (RSeq (RChar (Ascii.eqb "*")) (RChar (not_in ["/"%char]))))) (lit "*/")).
(** :90-91 *)
Definition re_line_comment : regex := RSeq (lit "//") (RSeq (RStar (RChar (not_in [lf]))) (RAlt (RChar (Ascii.eqb cr)) REps)).
(** :94-95 *)
Definition re_code : regex :=
  RSeq (lit "->") (RSeq (RStar (RAlt (RChar (not_in ["}"%char])) (RSeq (RChar (Ascii.eqb "}")) (RChar (not_in ["%"%char]))))) (lit "}%")).
(** :101-102 *)
Definition re_ws : regex := let one := RChar (fun c => existsb (Ascii.eqb c) [" "%char; tab; lf; cr]) in RSeq one (RStar one).

(** all of them, higher priority first; [None] for those with [logos::skip].  :41-107 *)
Definition lexicon (lg : logos) : list (option sym * regex) :=
  [(Some AliasWord, lit "alias"); (Some UseWord, lit "use"); (Some Assign, lit "="); (Some Pipe, lit "|");
   (Some OpenParen, lit "("); (Some CloseParen, lit ")"); (Some Sc, lit ";"); (Some PathAccess, lit "::"); (Some TwoDots, lit ":");
   (Some Glob, lit "*"); (Some Optional, lit "?"); (Some Clone, lit "&");
   (Some Ident, re_ident lg); (Some StrLit, re_str); (None, re_block_comment); (None, re_line_comment); (Some CodeBlock, re_code); (None, re_ws)].

(** ** The lexer *)

(** the longest match of an entry of [l] at the start of [s]; the first entry with it *)
Fixpoint best (l : list (option sym * regex)) (s : string) : option (option sym * nat) :=
  match l with
  | [] => None
  | (k, r) :: l' => match longest r s, best l' s with
      | Some n, Some (k', n') => if n' <=? n then Some (k, n) else Some (k', n')
      | Some n, None => Some (k, n)
      | None, b => b
      end
  end.
Fixpoint drop (n : nat) (s : string) : string :=
  match n, s with
  | 0, _ => s
  | S n', String _ s' => drop n' s'
  | S _, EmptyString => EmptyString
  end.

Section Lexer.
Variable lg : logos.

(** [Sym::lexer(source).spanned()], as used by [lexer], /repo/wop/src/lib.rs:123-129; [pos] bytes
    precede [s] *)
Fixpoint scan (fuel pos : nat) (s : string) : list (sym * span) :=
  match fuel, s with
  | 0, _ | _, EmptyString => []
  | S n, _ =>
      match best (lexicon lg) s with
      | Some (k, len) =>
          let rest := scan n (pos + len) (drop len s) in
          match k with Some x => (x, (pos, pos + len)) :: rest | None => rest end
      | None =>
          let len := Nat.min (S (extent lg s)) (String.length s) in
          (SymError, (pos, pos + len)) :: scan n (pos + len) (drop len s)
      end
  end.
Definition tokenize (src : string) : list (sym * span) := scan (String.length src) 0 src.
End Lexer.

(** [Span::from_source], /repo/src/lib.rs:125-130, for [start <= end <= src.len()] *)
Definition slice (src : string) (s : span) : string := substring (fst s) (snd s - fst s) src.

(** [Builder::from_str], /repo/wop/src/builder.rs:393-403 *)
Definition from_str (lg : logos) (order : prod_build -> list prod_build -> list span -> list span) (dbg : bool) (fuel : nat) (src : string) : res (builder + error sym) :=
  from_tokens (slice src) order dbg fuel (map (fun t => lexed (fst t) (snd t)) (tokenize lg src)).
