(** What [wop] (model in Wop.v) is meant to do: patterns, the productions they stand for, and
    the tokens their aliases stand for. *)
From Coq Require Import List Bool Arith String Permutation.
From Verif Require Import BTree Model Strings Wop.
Import ListNotations.
Local Open Scope list_scope.

(** ** Patterns *)

(** an item of a rule: a symbol, or a group of alternatives (each followed by the code block
    written after it, [(0, 0)] if none); either may be optional ([?]), aliased ([:x]), and the
    alias cloned ([:&x]) *)
Inductive pat :=
| PSym (s : span) (opt : bool) (alias : option span) (clone : bool)
| PGroup (vs : list (list pat * span)) (opt : bool) (alias : option span) (clone : bool).

(** the syntax tree [g] is that of [p]; whatever mark is written, the tree says to clone every item
    that has an alias *)
Inductive rep : gramem -> pat -> Prop :=
| rep_sym g item opt al cl' :
    g_ast g = ARuleItem item opt al (is_some al) -> tk_ty item = StrLit \/ tk_ty item = IdentPath ->
    rep g (PSym (g_span item) opt al cl')
| rep_group g item opt al cl' variants vs :
    g_ast g = ARuleItem item opt al (is_some al) -> tk_ty item = Rule -> g_ast item = ARule variants -> vs <> [] ->
    Forall2 (fun a b => snd a = snd b /\ Forall2 rep (fst a) (fst b)) variants vs ->
    rep g (PGroup vs opt al cl').
Definition rep_pipe : list gramem -> list pat -> Prop := Forall2 rep.

(** no alternative of a group, at any depth, has a code block *)
Fixpoint clean (p : pat) : bool :=
  match p with
  | PSym _ _ _ _ => true
  | PGroup vs _ _ _ => forallb (fun v => span_eqb (snd v) (0, 0) && forallb clean (fst v)) vs
  end.
Definition clean_pipe (ps : list pat) : bool := forallb clean ps.

(** ** Productions *)

(** choose one alternative per group and keep or drop each optional *)
Inductive picks : list pat -> list span -> Prop :=
| picks_nil : picks [] []
| picks_sym s o a c ps w : picks ps w -> picks (PSym s o a c :: ps) (s :: w)
| picks_group vs o a c v ps w w' : In v vs -> picks (fst v) w -> picks ps w' -> picks (PGroup vs o a c :: ps) (w ++ w')
| picks_drop_sym s a c ps w : picks ps w -> picks (PSym s true a c :: ps) w
| picks_drop_group vs a c ps w : picks ps w -> picks (PGroup vs true a c :: ps) w.

(** all the choices in order: earlier items vary slowest, alternatives come in the order written,
    dropping an optional comes last *)
Fixpoint expand_item (p : pat) : list (list span) :=
  match p with
  | PSym s o _ _ => [s] :: (if o then [[]] else [])
  | PGroup vs o _ _ =>
      flat_map (fun v => (fix pipe ps := match ps with
        | [] => [[]]
        | p :: ps' => flat_map (fun w => map (app w) (pipe ps')) (expand_item p)
        end) (fst v)) vs ++ (if o then [[]] else [])
  end.
Fixpoint expand (ps : list pat) : list (list span) :=
  match ps with
  | [] => [[]]
  | p :: ps' => flat_map (fun w => map (app w) (expand ps')) (expand_item p)
  end.

(** ** Aliases *)

(** the alias spans of a pattern *)
Fixpoint alias_spans (p : pat) : list span :=
  match p with
  | PSym _ _ a _ => match a with Some a => [a] | None => [] end
  | PGroup vs _ a _ => (match a with Some a => [a] | None => [] end) ++ flat_map (fun v => flat_map alias_spans (fst v)) vs
  end.
Definition pipe_spans (ps : list pat) : list span := flat_map alias_spans ps.

(** where the kept aliased items lie in a production: at a position, or from one position up to
    another for a group *)
Definition env : Type := list (span * (nat * option nat)).
Definition shift (n : nat) (e : env) : env := map (fun x => (fst x, (fst (snd x) + n, option_map (fun f => f + n) (snd (snd x))))) e.
Definition at_own (a : option span) (f : option nat) : env := match a with Some a => [(a, (0, f))] | None => [] end.

(** one item, then the rest of the pipe behind it *)
Definition run_app (r r' : list span * env) : list span * env := (fst r ++ fst r', snd r ++ shift (List.length (fst r)) (snd r')).
Fixpoint runs_item (p : pat) : list (list span * env) :=
  match p with
  | PSym s o a _ => ([s], at_own a None) :: (if o then [([], [])] else [])
  | PGroup vs o a _ =>
      map (fun r => (fst r, at_own a (Some (List.length (fst r))) ++ snd r))
        (flat_map (fun v => (fix pipe ps := match ps with
          | [] => [([], [])]
          | p :: ps' => flat_map (fun r => map (run_app r) (pipe ps')) (runs_item p)
          end) (fst v)) vs) ++ (if o then [([], [])] else [])
  end.
(** the productions of a pipe, each with the places of the aliased items kept in it *)
Fixpoint runs (ps : list pat) : list (list span * env) :=
  match ps with
  | [] => [([], [])]
  | p :: ps' => flat_map (fun r => map (run_app r) (runs ps')) (runs_item p)
  end.

Section Names.
Variable text : span -> string.
Definition names (l : list span) : list string := map text l.
Definition pipe_names (ps : list pat) : list string := names (pipe_spans ps).
Definition item_names (p : pat) : list string := names (alias_spans p).

(** the place of the item a name stands for, if one is kept *)
Fixpoint place (n : string) (e : env) : option (nat * option nat) :=
  match e with
  | [] => None
  | (a, x) :: e' => if String.eqb (text a) n then Some x else place n e'
  end.

(** names the code block sees as a plain value: those of the mandatory items of the pipe itself;
    all others it sees as an [Option] *)
Definition plain_item (p : pat) : list string :=
  match p with
  | PSym _ false (Some a) _ | PGroup _ false (Some a) _ => [text a]
  | _ => []
  end.
Definition plain (ps : list pat) : list string := flat_map plain_item ps.

(** what the name [n] is to be bound to when the production with places [e] is reduced *)
Definition expected {A} (ps : list pat) (toks : list A) (e : env) (n : string) : res (bound A) :=
  match place n e with
  | None => Val Absent
  | Some (i, None) => match nth_error toks i with
      | Some t => Val (if existsb (String.eqb n) (plain ps) then One t else Present (One t))
      | None => Panic P_index
      end
  | Some (i, Some f) =>
      let l := firstn (f - i) (skipn i toks) in
      Val (if existsb (String.eqb n) (plain ps) then Slice l else Present (Slice l))
  end.

(** ** Patterns whose aliases wop gets right *)

(** In every group: each alias inside an alternative is kept by all choices within that
    alternative; a name used at two places is used in all alternatives; and if the group has an
    alias of its own, every item of an alternative stands for one token.  Names of different items
    differ, also from that of the group they are in. *)
Inductive good_item : pat -> Prop :=
| good_sym s o a c : good_item (PSym s o a c)
| good_group vs o a c :
    (forall v, In v vs -> Forall good_item (fst v) /\ ForallOrdPairs (fun p q => forall n, In n (item_names p) -> ~ In n (item_names q)) (fst v)) ->
    (forall v n w e, In v vs -> In n (pipe_names (fst v)) -> In (w, e) (runs (fst v)) -> place n e <> None) ->
    (forall v v' s s', In v vs -> In v' vs -> In s (pipe_spans (fst v)) -> In s' (pipe_spans (fst v')) -> text s = text s' ->
       s = s' \/ forall v'', In v'' vs -> In (text s) (pipe_names (fst v''))) ->
    (forall b v w, a = Some b -> In v vs -> In w (expand (fst v)) -> List.length w = List.length (fst v)) ->
    (forall b v, a = Some b -> In v vs -> ~ In (text b) (pipe_names (fst v))) ->
    good_item (PGroup vs o a c).
Definition distinct (ps : list pat) : Prop := ForallOrdPairs (fun p q => forall n, In n (item_names p) -> ~ In n (item_names q)) ps.
Definition good (ps : list pat) : Prop := Forall good_item ps /\ distinct ps.
End Names.

(** a chosen iteration order lists the set, whatever it depends on *)
Definition iterates (order : prod_build -> list prod_build -> list span -> list span) : Prop :=
  forall p ps l, Permutation (order p ps l) l.

(** ** Grammar files *)

(** a declaration: a rule with its name, type and alternatives (each with its code block, [(0, 0)]
    if none), an import, or a token alias *)
Inductive decl :=
| DRule (name ty : span) (alts : list (list pat * span))
| DUse (s : span)
| DAlias (tk alias : span).

(** the syntax tree [g] is that of [d]; of the file [ds] *)
Inductive rep_decl : gramem -> decl -> Prop :=
| rep_rule g name ty rule alts : g_ast g = ARuleDecl name ty rule ->
    Forall2 (fun a b => snd a = snd b /\ rep_pipe (fst a) (fst b)) rule alts -> rep_decl g (DRule name ty alts)
| rep_use g s : g_ast g = AImport s -> rep_decl g (DUse s)
| rep_alias g tk alias : g_ast g = AAlias tk alias -> rep_decl g (DAlias tk alias).
Definition rep_file (g : gramem) (ds : list decl) : Prop := exists l, g_ast g = AProgram l /\ Forall2 rep_decl l ds.

Section Files.
Variable text : span -> string.

(** of the statements [bs] of a production of the pipe [ps], exactly one binds each name of the pipe,
    and that gives it the tokens expected; nothing else is bound *)
Definition binds_right (ps : list pat) (bs : list binding) (r : list span * env) : Prop :=
  (forall b, In b bs -> In (bd_name b) (pipe_names text ps)) /\
  forall n, In n (pipe_names text ps) -> exists b, filter (fun b => String.eqb (bd_name b) n) bs = [b] /\
    forall A (toks : list A), List.length toks = List.length (fst r) -> toks <> [] -> run_binding toks b = expected text ps toks (snd r) n.
Definition bound_right (ps : list pat) (p : prod_build) : list span * env -> Prop := binds_right ps (map (write_alias text) (pb_aliases p)).

(** Rust types of the names bound in a reductor, [toks] being a slice of items *)
Inductive rust := TItem | TRef | TVec | TSlice | TOption (t : rust).
(** the type of the name bound by a statement; [None] if the compiler rejects it, which happens to
    [toks[0].to_vec()] *)
Definition stmt_type (b : binding) : option rust :=
  let one := if bd_clone b then TItem else TRef in
  match bd_optional b, bd_final b with
  | None, None => Some one
  | None, Some _ => Some (if bd_clone b then TVec else TSlice)
  | Some true, None => Some (TOption one)
  | Some true, Some _ => Some (TOption (if bd_clone b then TVec else TSlice))
  | Some false, None => Some (TOption one)
  | Some false, Some _ => if bd_clone b then None else Some (TOption TRef)
  end.

(** no optional group, at any depth, has an alias *)
Fixpoint solid (p : pat) : bool :=
  match p with
  | PSym _ _ _ _ => true
  | PGroup vs o a _ => negb (o && is_some a) && forallb (fun v => forallb solid (fst v)) vs
  end.
(** nor is there an alias inside a group *)
Definition flat (p : pat) : bool :=
  match p with
  | PSym _ _ _ _ => true
  | PGroup vs o a _ => negb (o && is_some a) && forallb (fun v => match pipe_spans (fst v) with [] => true | _ => false end) vs
  end.
(** the names of a pipe and their types, an alias of a symbol being an item and one of a group a
    vector, optional ones wrapped *)
Definition signature (ps : list pat) : list (string * option rust) :=
  flat_map (fun p => match p with
    | PSym _ o (Some a) _ => [(text a, Some (if o then TOption TItem else TItem))]
    | PGroup _ o (Some a) _ => [(text a, Some (if o then TOption TVec else TVec))]
    | _ => []
    end) ps.
Definition well_typed (ps : list pat) (bs : list binding) : Prop :=
  (forallb solid ps = true -> forall b, In b bs -> stmt_type b <> None) /\
  (forallb flat ps = true -> map (fun b => (bd_name b, stmt_type b)) bs = signature ps) /\
  (forall n, In n (map bd_name bs) <-> In n (pipe_names text ps)).

Definition rule_names (ds : list decl) : list string := flat_map (fun d => match d with DRule name _ _ => [text name] | _ => [] end) ds.
Definition alias_keys (ds : list decl) : list string := flat_map (fun d => match d with DAlias tk _ => [text tk] | _ => [] end) ds.
Definition imports (ds : list decl) : list span := flat_map (fun d => match d with DUse s => [s] | _ => [] end) ds.

(** nothing is declared twice, every alternative of a rule has a code block, and none within a group has *)
Definition valid (ds : list decl) : Prop :=
  NoDup (rule_names ds) /\ NoDup (alias_keys ds) /\
  forall name ty alts pipe cb, In (DRule name ty alts) ds -> In (pipe, cb) alts -> text cb <> ""%string /\ clean_pipe pipe = true.

(** what a symbol stands for after the declarations [ds]: the definition of the alias with its
    text, or itself *)
Fixpoint resolve (ds : list decl) (s : span) : span :=
  match ds with
  | [] => s
  | DAlias tk alias :: ds' => if String.eqb (text tk) (text s) then alias else resolve ds' s
  | _ :: ds' => resolve ds' s
  end.

(** [prods] are the productions of a rule declared after [ds]: those of its first alternative, then
    those of the second, and so on, each carrying the code block of its alternative *)
Definition builds (ds : list decl) (ty : span) (alts : list (list pat * span)) (prods : list prod_build) : Prop :=
  Forall2 (fun p x => pb_production p = map (resolve ds) (snd x) /\ pb_codeblock p = snd (fst x) /\ pb_ty p = ty)
    prods (flat_map (fun alt => map (pair alt) (expand (fst alt))) alts).

(** and the aliases of good alternatives are bound right, the statements are well typed *)
Definition binds (alts : list (list pat * span)) (prods : list prod_build) : Prop :=
  Forall2 (fun p x => (good text (fst (fst x)) -> bound_right (fst (fst x)) p (snd x)) /\ well_typed (fst (fst x)) (map (write_alias text) (pb_aliases p))) prods (flat_map (fun alt => map (pair alt) (runs (fst alt))) alts).

(** [b] records the declarations [ds] *)
Definition records (b : builder) (ds : list decl) : Prop :=
  b_imports b = imports ds /\
  (forall k v, bm_get k (b_aliases b) = Some v <-> exists tk, In (DAlias tk v) ds /\ text tk = k) /\
  (forall n, (exists prods, bm_get n (b_rules b) = Some prods) <-> In n (rule_names ds)) /\
  (forall ds1 name ty alts ds2, ds = ds1 ++ DRule name ty alts :: ds2 ->
     exists prods, bm_get (text name) (b_rules b) = Some prods /\ builds ds1 ty alts prods /\ binds alts prods).
End Files.

(** ** Concrete syntax *)

(** a token: its kind and where it is *)
Definition lexeme : Type := (sym * span)%type.

(** [a::b::c]; the span runs from the first name to the last *)
Inductive path_toks : list lexeme -> span -> Prop :=
| path_one s : path_toks [(Ident, s)] s
| path_more ts a p b : path_toks ts a -> path_toks (ts ++ [(PathAccess, p); (Ident, b)]) (fst a, snd b).
(** [?] or nothing *)
Inductive quest_toks : list lexeme -> bool -> Prop :=
| quest_none : quest_toks [] false
| quest_some q : quest_toks [(Optional, q)] true.
(** [:x], [:&x] or nothing *)
Inductive aka_toks : list lexeme -> option span -> bool -> Prop :=
| aka_none : aka_toks [] None false
| aka_name c a : aka_toks [(TwoDots, c); (Ident, a)] (Some a) false
| aka_clone c r a : aka_toks [(TwoDots, c); (Clone, r); (Ident, a)] (Some a) true.

(** items; sequences of items; alternatives with or without a code block; several alternatives *)
Inductive item_toks : list lexeme -> pat -> Prop :=
| item_path ts s q o k a c : path_toks ts s -> quest_toks q o -> aka_toks k a c -> item_toks (ts ++ q ++ k) (PSym s o a c)
| item_str s q o k a c : quest_toks q o -> aka_toks k a c -> item_toks ((StrLit, s) :: q ++ k) (PSym s o a c)
| item_group l ts r vs q o k a c : alts_toks ts vs -> quest_toks q o -> aka_toks k a c ->
    item_toks ((OpenParen, l) :: ts ++ (CloseParen, r) :: q ++ k) (PGroup vs o a c)
with pipe_toks : list lexeme -> list pat -> Prop :=
| pipe_one ts p : item_toks ts p -> pipe_toks ts [p]
| pipe_more ts ps ts' p : pipe_toks ts ps -> item_toks ts' p -> pipe_toks (ts ++ ts') (ps ++ [p])
with alt_toks : list lexeme -> list pat * span -> Prop :=
| alt_plain ts ps : pipe_toks ts ps -> alt_toks ts (ps, (0, 0))
| alt_code ts ps c : pipe_toks ts ps -> alt_toks (ts ++ [(CodeBlock, c)]) (ps, c)
with alts_toks : list lexeme -> list (list pat * span) -> Prop :=
| alts_one ts v : alt_toks ts v -> alts_toks ts [v]
| alts_more ts vs p ts' v : alts_toks ts vs -> alt_toks ts' v -> alts_toks (ts ++ (Pipe, p) :: ts') (vs ++ [v]).

Inductive decl_toks : list lexeme -> decl -> Prop :=
| decl_rule n name c t ty e r alts : path_toks n name -> path_toks t ty -> alts_toks r alts ->
    decl_toks (n ++ (TwoDots, c) :: t ++ (Assign, e) :: r) (DRule name ty alts)
| decl_use u ts s : path_toks ts s -> decl_toks ((UseWord, u) :: ts) (DUse s)
| decl_glob u ts s p g : path_toks ts s -> decl_toks ((UseWord, u) :: ts ++ [(PathAccess, p); (Glob, g)]) (DUse (fst s, snd g))
| decl_alias w x tk ts s : x = Ident \/ x = StrLit -> path_toks ts s -> decl_toks ((AliasWord, w) :: (x, tk) :: ts) (DAlias tk s).
(** declarations, at least one, each followed by a semicolon *)
Inductive file_toks : list lexeme -> list decl -> Prop :=
| file_one ts d s : decl_toks ts d -> file_toks (ts ++ [(Sc, s)]) [d]
| file_more ts ds ts' d s : file_toks ts ds -> decl_toks ts' d -> file_toks (ts ++ ts' ++ [(Sc, s)]) (ds ++ [d]).

(** [Builder::from_str], from the tokens [ts] on, ends as [r] *)
Definition reads (text : span -> string) (order : prod_build -> list prod_build -> list span -> list span) (dbg : bool)
    (ts : list lexeme) (r : res (builder + error sym)) : Prop :=
  exists F, forall fuel, F <= fuel -> from_tokens text order dbg fuel (map (fun t => lexed (fst t) (snd t)) ts) = r.

(** every span occurring in a declaration *)
Definition opt_span (a : option span) : list span := match a with Some a => [a] | None => [] end.
Fixpoint all_spans (p : pat) : list span :=
  match p with
  | PSym s _ a _ => s :: opt_span a
  | PGroup vs _ a _ => opt_span a ++ flat_map (fun v => snd v :: flat_map all_spans (fst v)) vs
  end.
Definition decl_spans (d : decl) : list span :=
  match d with
  | DRule name ty alts => name :: ty :: flat_map (fun v => snd v :: flat_map all_spans (fst v)) alts
  | DUse s => [s]
  | DAlias tk alias => [tk; alias]
  end.

(** the statements [bs] and the code [c] make up the reductor emitted for the choice [r] of the
    alternative [alt] of a rule of the file with tokens [ts] *)
Definition emits (text : span -> string) (order : prod_build -> list prod_build -> list span -> list span) (dbg : bool)
    (ts : list lexeme) (alt : list pat * span) (r : list span * env) (bs : list binding) (c : string) : Prop :=
  exists b rs ds ds1 name ty alts ds2 fs i, reads text order dbg ts (Val (inl b)) /\ dump_reductor text b = Val rs /\
    file_toks ts ds /\ ds = ds1 ++ DRule name ty alts :: ds2 /\ In (text name, fs) rs /\
    nth_error (flat_map (fun alt => map (pair alt) (runs (fst alt))) alts) i = Some (alt, r) /\ nth_error fs i = Some (bs, c).
