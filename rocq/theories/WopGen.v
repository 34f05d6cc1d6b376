(** The parser a generated file makes: the [ReductMap] of out.rs as functions on tokens.

    Simplifications.
    - The enumerators of the user's symbol type are identified with the texts naming them in the
      grammar file: different texts stand for different symbols.
    - A code block is a function [code] of [toks] and the names its reductor binds; it does not
      panic.  (A reductor with an alias called [toks] is not modelled here, see [run_all].)  All
      rules make values of one type [V], as the [ReductMap] demands. *)
From Coq Require Import List Bool Arith String.
From Verif Require Import BTree Model Strings Wop WopText.
Import ListNotations.

(** the names in scope of a code block: a later [let] hides an earlier one *)
Definition in_scope {A} (vals : list (string * bound A)) (n : string) : option (bound A) :=
  option_map snd (find (fun x => String.eqb (fst x) n) (rev vals)).

Section Gen.
Context {V : Type}.

(** a token, [Token<Meta<V>, Sym>], /repo/src/lib.rs:72-100 *)
Definition gtok : Type := token string (V * span).
Variable code : string -> list gtok -> (string -> option (bound gtok)) -> V.

(** as in [wop_maps], a panicking reductor gives the value [Panic], which reductors above it pass on *)
Definition unwrap_gtok (t : token string (res (V * span))) : res gtok := do m <- tk_item t; Val (mkTok m (tk_ty t)).
(** one emitted function, /repo/wop/src/builder.rs:373-383, with statements [fst f] and code block [snd f] *)
Definition gen_reductor (f : list binding * string) (its : list (token string (res (V * span)))) : res (V * span) :=
  do toks <- mapM unwrap_gtok its;
  do '(v, (a, z)) <- run_reductor (fun vals => code (snd f) toks (in_scope vals)) (fst f) toks;
  Val (v, (fst (snd (tk_item a)), snd (snd (tk_item z)))).
(** [reduct_map()] of out.rs, /repo/wop/src/builder.rs:350-390, [rs] being the rules in the order of the
    emitted [map.insert]s *)
Definition gen_maps (rs : list (string * list (list binding * string))) : reductmap string (res (V * span)) :=
  bm_of_list (map (fun e => (fst e, map gen_reductor (snd e))) rs).
(** a token of the input *)
Definition sent (t : gtok) : token string (res (V * span)) := mkTok (Val (tk_item t)) (tk_ty t).
End Gen.
Arguments gtok V : clear implicits.
