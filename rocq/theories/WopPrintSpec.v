(** Sources in UTF-8, and where the nodes of a syntax tree lie in the source. *)
From Coq Require Import List Bool Arith Ascii String.
From Verif Require Import BTree Model Wop WopSpec WopLex WopPrint.
Import ListNotations.
Local Open Scope list_scope.
Local Notation len := String.length.
Local Infix "+++" := String.append (right associativity, at level 60).

(** ** UTF-8 *)

(** a byte that is not a continuation, followed by as many continuations as it announces
    (overlong forms and surrogates, which Rust forbids, are let in) *)
Definition announces (c : ascii) : nat :=
  let n := nat_of_ascii c in if n <? 192 then 0 else if n <? 224 then 1 else if n <? 240 then 2 else 3.
Definition continues (c : ascii) : bool := let n := nat_of_ascii c in (128 <=? n) && (n <? 192).
Definition char (s : string) : Prop :=
  exists c r, s = String c r /\ continues c = false /\ len r = announces c /\ Forall (fun d => continues d = true) (list_ascii_of_string r).
(** a sequence of characters *)
Inductive utf8 : string -> Prop :=
| utf8_nil : utf8 ""
| utf8_cons c s : char c -> utf8 s -> utf8 (c +++ s).

(** [i] bytes into [src] a character ends and another one starts *)
Definition cuts (src : string) (i : nat) : Prop := exists a b, src = a +++ b /\ len a = i /\ utf8 a /\ utf8 b.

(** logos works on characters: [\w] matches whole ones, and an error covers whole ones *)
Definition by_chars (lg : logos) : Prop :=
  Forall char (wide lg) /\ forall s, utf8 s -> s <> ""%string -> cuts s (Nat.min (S (extent lg s)) (len s)).

(** ** Trees *)

(** the subtrees of a node, in order *)
Definition children (g : gramem) : list gramem :=
  match g_ast g with
  | AEntryPoint g' => [g']
  | AProgram l | ARulePipe l => l
  | ARuleDecl _ _ rule => flat_map fst rule
  | ARule l => flat_map fst l
  | ARuleItem item _ _ _ => [item]
  | _ => []
  end.
(** the further places in the source a node refers to *)
Definition references (g : gramem) : list span :=
  match g_ast g with
  | ARuleDecl ident ty rule => ident :: ty :: map snd rule
  | ARule l => map snd l
  | ARuleItem _ _ alias _ => opt_span alias
  | AImport s => [s]
  | AAlias tk alias => [tk; alias]
  | AIdentPath s => [s]
  | _ => []
  end.

(** [s] reaches from the first of the tokens [ts] to the last *)
Definition spans (ts : list lexeme) (s : span) : Prop :=
  exists a z, hd_error ts = Some a /\ hd_error (rev ts) = Some z /\ s = (fst (snd a), snd (snd z)).

(** the node [g] is made of the tokens [ts]: its span reaches from the first to the last, its
    references to some of them or, as a missing code block, to nothing, and its subtrees are
    made of some of them, one behind the other *)
Inductive located : list lexeme -> gramem -> Prop :=
| located_at ts g : spans ts (g_span g) ->
    (forall s, In s (references g) -> s = (0, 0) \/ exists t1 t2 t3, ts = t1 ++ t2 ++ t3 /\ spans t2 s) ->
    placed ts (children g) -> located ts g
with placed : list lexeme -> list gramem -> Prop :=
| placed_nil : placed [] []
| placed_skip t ts gs : placed ts gs -> placed (t :: ts) gs
| placed_node ts g us gs : located ts g -> placed us gs -> placed (ts ++ us) (g :: gs).

(** [h] is [g] or is somewhere in it *)
Inductive inside (h : gramem) : gramem -> Prop :=
| inside_here : inside h h
| inside_child g g' : In g' (children g) -> inside h g' -> inside h g.

(** the nodes of a tree, each before what is in it *)
Inductive walk : gramem -> list gramem -> Prop :=
| walk_node g ls : walks (children g) ls -> walk g (g :: ls)
with walks : list gramem -> list gramem -> Prop :=
| walks_nil : walks [] []
| walks_cons g gs l ls : walk g l -> walks gs ls -> walks (g :: gs) (l ++ ls).

(** [l] is what remains of [m] when some elements are left out *)
Inductive picked {A} : list A -> list A -> Prop :=
| picked_nil : picked [] []
| picked_skip a l m : picked l m -> picked l (a :: m)
| picked_take a l m : picked l m -> picked (a :: l) (a :: m).

(** a line about the node [h]: its symbol and its source text *)
Definition shows (src : string) (h : gramem) (line : string) : Prop :=
  exists lvl prefix, line = (indent lvl +++ prefix +++ sym_name (tk_ty h) +++ ": " +++ bright (slice src (g_span h))).

(** the lines [m] about the node [h] and what is in it: what is said about the node itself, [n] steps indented *)
Definition tells (debug : string -> string) (src : string) (n : nat) (h : gramem) (m : list string) : Prop :=
  let quoted s := bright (slice src s) in
  exists line m', m = line :: m' /\ shows src h line /\
  match g_ast h with
  | AToken s => m' = [indent n +++ "|> sym: " +++ sym_name s]
  | AImport s => m' = [indent n +++ "|> path: " +++ slice src s]
  | AAlias tk alias => m' = [indent n +++ "|> alias: " +++ slice src tk; indent n +++ "|> definition: " +++ slice src alias]
  | AIdentPath s => m' = [indent n +++ " " +++ slice src s]
  | ARuleDecl ident ty _ => exists l, m' = (indent n +++ "|> rule_name: " +++ quoted ident) :: (indent n +++ "|> rule_type: " +++ quoted ty) :: l
  | ARuleItem _ optional alias clone => exists l, m' = app l
      [indent n +++ "|> optional: " +++ (if optional then "true" else "false"); indent n +++ "|> clone: " +++ (if clone then "true" else "false");
       indent n +++ "|> alias: " +++ match alias with Some s => debug (slice src s) | None => "(null)" end]
  | _ => True
  end%string.

(** ** Runs *)

(** the parser in [main], reading the source text [src], ends with the outcome [o] and [items] on its stack, bottom first *)
Definition parsed (lg : logos) (dbg : bool) (src : string) (o : outcome sym) (items : list gramem) : Prop :=
  exists F, forall fuel, F <= fuel -> wop_parse dbg fuel (tokenize lg src) = Val (o, items).
(** [main], reading the source text [src], prints and ends as [r] *)
Definition prints (debug : string -> string) (lg : logos) (order : prod_build -> list prod_build -> list span -> list span)
    (iter : list (string * list prod_build) -> list (string * list prod_build)) (text : span -> string) (dbg : bool) (src : string)
    (r : res (outcome sym * string * (list string * list string))) : Prop :=
  exists F, forall fuel, F <= fuel -> wop_main_printing debug lg order iter text dbg fuel src = r.
