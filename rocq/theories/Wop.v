(** Executable model of [wop] (/repo/wop/src), the generator that reads a grammar file and
    writes the Rust code of an [lrp] grammar and its reductors.

    Simplifications.
    - In this file the input is the token sequence; the lexer is modelled in WopLex.v.  A source reference
      ([SrcRef], a [Span]) is a pair of offsets and [text s] stands for [s.from_source(src)]
      (slicing out of range, which spans made by the lexer never do (C63), is not modelled).
    - [HashMap]s are sorted maps: the code iterates over them only to emit one [map.insert] per
      rule, in an order that does not matter.  The iteration order of the [HashSet] in
      [set_sub_aliases] is a parameter [order].
    - [unreachable!] and [panic!] are [Panic P_unlisted].
    - Of the emitted Rust code this file models the structure, and the text only of the bindings: the right-hand sides given
      to [Rule::new], and for each reductor its [let] bindings and its code block.  The full text is in WopText.v. *)
From Coq Require Import List Bool Arith NArith Ascii String DecimalString.
From Verif Require Import BTree Model Strings.
Import ListNotations.

(** ** Symbols *)

(** [Sym], /repo/wop/src/lib.rs:41-118, in declaration order *)
Inductive sym :=
| AliasWord | UseWord | Assign | Pipe | OpenParen | CloseParen | Sc | PathAccess | TwoDots | Glob | Optional | Clone | Ident
| StrLit | BlockComment | LineComment | CodeBlock | SymError | Ws | Eof
| SymToken | EntryPoint | Program | Rule | Import | Alias | RulePipe | RuleDecl | IdentPath | RuleItem.

(** the discriminant, by which [#[derive(Ord)]] compares *)
Definition sym_key (s : sym) : N :=
  match s with
  | AliasWord => 0 | UseWord => 1 | Assign => 2 | Pipe => 3 | OpenParen => 4 | CloseParen => 5 | Sc => 6 | PathAccess => 7
  | TwoDots => 8 | Glob => 9 | Optional => 10 | Clone => 11 | Ident => 12 | StrLit => 13 | BlockComment => 14 | LineComment => 15
  | CodeBlock => 16 | SymError => 17 | Ws => 18 | Eof => 19 | SymToken => 20 | EntryPoint => 21 | Program => 22 | Rule => 23
  | Import => 24 | Alias => 25 | RulePipe => 26 | RuleDecl => 27 | IdentPath => 28 | RuleItem => 29
  end.
Lemma sym_key_inj a b : sym_key a = sym_key b -> a = b.
Proof. destruct a, b; simpl; intros E; try discriminate E; reflexivity. Qed.
#[global] Instance Ord_sym : Ord sym := Ord_inj sym_key sym_key_inj.

(** ** Syntax trees *)

(** [SrcRef], /repo/wop/src/builder.rs:8, and [Span], /repo/src/lib.rs:114-117 *)
Definition span : Type := (nat * nat)%type.

(** [Ast], /repo/wop/src/lib.rs:7-24; a [Gramem] is a token carrying a tree and its span *)
Inductive ast :=
| AToken (s : sym)
| AEntryPoint (g : token sym (ast * span))
| AProgram (l : list (token sym (ast * span)))
| ARuleDecl (ident ty : span) (rule : list (list (token sym (ast * span)) * span))
| ARule (l : list (list (token sym (ast * span)) * span))
| ARulePipe (l : list (token sym (ast * span)))
| ARuleItem (item : token sym (ast * span)) (optional : bool) (alias : option span) (clone : bool)
| AImport (s : span)
| AAlias (tk alias : span)
| AIdentPath (s : span).
Definition meta : Type := (ast * span)%type.
Definition gramem : Type := token sym meta.
(** [g.item.item], [g.item.span] *)
Definition g_ast (g : gramem) : ast := fst (tk_item g).
Definition g_span (g : gramem) : span := snd (tk_item g).

(** ** The front end: wop's own grammar and reductors *)

(** [out::grammar], /repo/wop/src/out.rs:6-112 *)
Definition wop_rules : list (sym * list (list sym)) :=
  [(RuleItem, [[IdentPath; Optional; TwoDots; Clone; Ident]; [IdentPath; Optional; TwoDots; Ident]; [IdentPath; Optional];
               [IdentPath; TwoDots; Clone; Ident]; [IdentPath; TwoDots; Ident]; [IdentPath];
               [StrLit; Optional; TwoDots; Clone; Ident]; [StrLit; Optional; TwoDots; Ident]; [StrLit; Optional];
               [StrLit; TwoDots; Clone; Ident]; [StrLit; TwoDots; Ident]; [StrLit];
               [OpenParen; Rule; CloseParen; Optional; TwoDots; Clone; Ident]; [OpenParen; Rule; CloseParen; Optional; TwoDots; Ident];
               [OpenParen; Rule; CloseParen; Optional]; [OpenParen; Rule; CloseParen; TwoDots; Clone; Ident];
               [OpenParen; Rule; CloseParen; TwoDots; Ident]; [OpenParen; Rule; CloseParen]]);
   (IdentPath, [[IdentPath; PathAccess; Ident]; [Ident]]);
   (EntryPoint, [[Program]]);
   (Rule, [[Rule; Pipe; RulePipe; CodeBlock]; [Rule; Pipe; RulePipe]; [RulePipe; CodeBlock]; [RulePipe]]);
   (RulePipe, [[RulePipe; RuleItem]; [RuleItem]]);
   (Import, [[UseWord; IdentPath; PathAccess; Glob]; [UseWord; IdentPath]]);
   (Alias, [[AliasWord; Ident; IdentPath]; [AliasWord; StrLit; IdentPath]]);
   (Program, [[Program; Import; Sc]; [Program; Alias; Sc]; [Program; RuleDecl; Sc]; [Alias; Sc]; [Import; Sc]; [RuleDecl; Sc]]);
   (RuleDecl, [[IdentPath; TwoDots; IdentPath; Assign; Rule]])].
Definition wop_grammar (dbg : bool) := grammar_new dbg EntryPoint (grammar_map wop_rules) Eof.

(** [toks[i]] *)
Definition tok_at (toks : list gramem) (i : nat) : res gramem := expect P_index (nth_error toks i).
(** [Span::new(toks[0].item.span.start, toks.last().unwrap().item.span.end)], the last argument
    of every generated reductor *)
Definition toks_span (toks : list gramem) : res span :=
  do a <- tok_at toks 0; do b <- expect P_expect (nth_error toks (List.length toks - 1)); Val (fst (g_span a), snd (g_span b)).
Definition tok_opt (toks : list gramem) (i : option nat) : res (option gramem) :=
  match i with Some i => do t <- tok_at toks i; Val (Some t) | None => do _ <- tok_at toks 0; Val None end.
Definition is_some {A} (o : option A) : bool := match o with Some _ => true | None => false end.
Definition metaM (a : res ast) (toks : list gramem) : res meta := do a <- a; do s <- toks_span toks; Val (a, s).

(** [lrp_wop_RuleItem_0] to [_17], /repo/wop/src/out.rs:127-510: where each takes its item and
    its [opt], [cl] and [id] from ([None]: bound to [None]) *)
Definition red_item (item : nat) (opt cl id : option nat) (toks : list gramem) : res meta :=
  metaM (do it <- tok_at toks item; do o <- tok_opt toks opt; do c <- tok_opt toks cl; do d <- tok_opt toks id;
         Val (ARuleItem it (is_some o) (option_map g_span d) (is_some c))) toks.
(** [lrp_wop_IdentPath_0], [_1], /repo/wop/src/out.rs:535-557 *)
Definition red_path0 (toks : list gramem) : res meta :=
  metaM (do ip <- tok_at toks 0; do ext <- tok_at toks 2; Val (AIdentPath (fst (g_span ip), snd (g_span ext)))) toks.
Definition red_path1 (toks : list gramem) : res meta := metaM (do t <- tok_at toks 0; Val (AIdentPath (g_span t))) toks.
(** [lrp_wop_EntryPoint_0], /repo/wop/src/out.rs:560-570 *)
Definition red_entry (toks : list gramem) : res meta := metaM (do p <- tok_at toks 0; Val (AEntryPoint p)) toks.
(** [lrp_wop_Rule_0] to [_3], /repo/wop/src/out.rs:573-654 *)
Definition red_rule01 (cb : option nat) (toks : list gramem) : res meta :=
  metaM (do c <- tok_opt toks cb; do a <- tok_at toks 0;
         do vv <- match g_ast a with ARule vv => Val vv | _ => Panic P_unlisted end;
         do b <- tok_at toks 2;
         do v <- match g_ast b with ARulePipe v => Val v | _ => Panic P_unlisted end;
         Val (ARule (vv ++ [(v, match c with Some g => g_span g | None => (0, 0) end)]))) toks.
Definition red_rule23 (cb : option nat) (toks : list gramem) : res meta :=
  metaM (do c <- tok_opt toks cb; do a <- tok_at toks 0;
         do v <- match g_ast a with ARulePipe v => Val v | _ => Panic P_unlisted end;
         Val (ARule [(v, match c with Some g => g_span g | None => (0, 0) end)])) toks.
(** [lrp_wop_RulePipe_0], [_1], /repo/wop/src/out.rs:665-690 *)
Definition red_pipe0 (toks : list gramem) : res meta :=
  metaM (do item <- tok_at toks 1; do a <- tok_at toks 0;
         do v <- match g_ast a with ARulePipe v => Val v | _ => Panic P_unlisted end; Val (ARulePipe (v ++ [item]))) toks.
Definition red_pipe1 (toks : list gramem) : res meta := metaM (do a <- tok_at toks 0; Val (ARulePipe [a])) toks.
(** [lrp_wop_Import_0], [_1], /repo/wop/src/out.rs:693-718 *)
Definition red_import (toks : list gramem) : res meta :=
  metaM (do a <- tok_at toks 1; do b <- expect P_expect (nth_error toks (List.length toks - 1)); Val (AImport (fst (g_span a), snd (g_span b)))) toks.
(** [lrp_wop_Alias_0], [_1], /repo/wop/src/out.rs:721-740 *)
Definition red_alias (toks : list gramem) : res meta :=
  metaM (do a <- tok_at toks 1; do b <- tok_at toks 2; Val (AAlias (g_span a) (g_span b))) toks.
(** [lrp_wop_Program_0] to [_5], /repo/wop/src/out.rs:743-826 *)
Definition red_prog0 (toks : list gramem) : res meta :=
  metaM (do ext <- tok_at toks 1; do a <- tok_at toks 0;
         do v <- match g_ast a with AProgram v => Val v | _ => Panic P_unlisted end; Val (AProgram (v ++ [ext]))) toks.
Definition red_prog3 (toks : list gramem) : res meta := metaM (do a <- tok_at toks 0; Val (AProgram [a])) toks.
(** [lrp_wop_RuleDecl_0], /repo/wop/src/out.rs:839-854; [get_src_ref], /repo/wop/src/lib.rs:28-33 *)
Definition src_ref (a : ast) : option span := match a with AIdentPath o => Some o | _ => None end.
Definition red_decl (toks : list gramem) : res meta :=
  metaM (do a <- tok_at toks 0; do ident <- expect P_expect (src_ref (g_ast a));
         do b <- tok_at toks 2; do ty <- expect P_expect (src_ref (g_ast b));
         do c <- tok_at toks 4; do v <- match g_ast c with ARule v => Val v | _ => Panic P_unlisted end;
         Val (ARuleDecl ident ty v)) toks.

(** A reductor of the model is total; a panicking one is given the value [Panic], which every
    reductor above it passes on. *)
Definition unwrap_tok (t : token sym (res meta)) : res gramem := do m <- tk_item t; Val (mkTok m (tk_ty t)).
Definition lift (f : list gramem -> res meta) (its : list (token sym (res meta))) : res meta :=
  do toks <- mapM unwrap_tok its; f toks.

(** [out::reduct_map], /repo/wop/src/out.rs:114-858 *)
Definition wop_maps : reductmap sym (res meta) :=
  bm_of_list [
    (RuleItem, map lift
      [red_item 0 (Some 1) (Some 3) (Some 4); red_item 0 (Some 1) (Some 3) (Some 3); red_item 0 (Some 1) None None;
       red_item 0 None (Some 2) (Some 3); red_item 0 None (Some 2) (Some 2); red_item 0 None None None;
       red_item 0 (Some 1) (Some 3) (Some 4); red_item 0 (Some 1) (Some 3) (Some 3); red_item 0 (Some 1) None None;
       red_item 0 None (Some 2) (Some 3); red_item 0 None (Some 2) (Some 2); red_item 0 None None None;
       red_item 1 (Some 3) (Some 5) (Some 6); red_item 1 (Some 3) (Some 5) (Some 5); red_item 1 (Some 3) None None;
       red_item 1 None (Some 4) (Some 5); red_item 1 None (Some 4) (Some 4); red_item 1 None None None]);
    (IdentPath, map lift [red_path0; red_path1]);
    (EntryPoint, map lift [red_entry]);
    (Rule, map lift [red_rule01 (Some 3); red_rule01 None; red_rule23 (Some 1); red_rule23 None]);
    (RulePipe, map lift [red_pipe0; red_pipe1]);
    (Import, map lift [red_import; red_import]);
    (Alias, map lift [red_alias; red_alias]);
    (Program, map lift [red_prog0; red_prog0; red_prog0; red_prog3; red_prog3; red_prog3]);
    (RuleDecl, map lift [red_decl])].

(** the tokens yielded by [lexer], /repo/wop/src/lib.rs:123-129 *)
Definition lexed (s : sym) (sp : span) : token sym (res meta) := mkTok (Val (AToken s, sp)) s.

(** ** The builder, /repo/wop/src/builder.rs *)

(** [ItemAlias], :22-29 *)
Record item_alias := mkAlias { a_alias : span; a_optional : option bool; a_index : nat; a_final : option nat; a_clone : bool }.
(** [ProductionBuild], :31-38 *)
Record prod_build := mkProd { pb_production : list span; pb_codeblock : span; pb_ty : span; pb_aliases : list item_alias }.

Definition span_eqb (a b : span) : bool := (fst a =? fst b) && (snd a =? snd b).
Definition set_optional (b : option bool) (a : item_alias) : item_alias := mkAlias (a_alias a) b (a_index a) (a_final a) (a_clone a).
Definition set_final (f : option nat) (a : item_alias) : item_alias := mkAlias (a_alias a) (a_optional a) (a_index a) f (a_clone a).
Definition with_aliases (p : prod_build) (l : list item_alias) : prod_build := mkProd (pb_production p) (pb_codeblock p) (pb_ty p) l.
Definition with_production (p : prod_build) (l : list span) : prod_build := mkProd l (pb_codeblock p) (pb_ty p) (pb_aliases p).

(** [ProductionBuild::push_alias], :41-47 *)
Definition push_alias (p : prod_build) (a : item_alias) : prod_build :=
  let n := List.length (pb_production p) in
  with_aliases p (pb_aliases p ++ [mkAlias (a_alias a) (a_optional a) (a_index a + n) (option_map (fun f => f + n) (a_final a)) (a_clone a)]).

(** [aliases.last_mut().unwrap()] followed by an assignment *)
Fixpoint map_last {A} (f : A -> A) (l : list A) : res (list A) :=
  match l with
  | [] => Panic P_expect
  | [a] => Val [f a]
  | a :: l' => do m <- map_last f l'; Val (a :: m)
  end.

(** [iter_mut().find(p)] followed by an assignment: the first match, if any *)
Fixpoint map_first {A} (p : A -> bool) (f : A -> A) (l : list A) : option (list A) :=
  match l with
  | [] => None
  | a :: l' => if p a then Some (f a :: l') else match map_first p f l' with Some m => Some (a :: m) | None => None end
  end.

(** [.iter().map(..).collect::<HashSet<_>>()] before its iteration order is chosen *)
Fixpoint dedup (l : list span) : list span :=
  match l with
  | [] => []
  | a :: l' => if existsb (span_eqb a) l' then dedup l' else a :: dedup l'
  end.

Section Builder.
(** [from_source(src)] *)
Variable text : span -> string.
(** the iteration order of a [HashSet] of aliases; it may depend on everything *)
Variable order : prod_build -> list prod_build -> list span -> list span.
(** [self.aliases] *)
Variable defs : bmap string span.

(** one round of the inner loop of [set_sub_aliases], :273-291 *)
Definition sub_alias (p : prod_build) (name : span) : prod_build :=
  match map_first (fun a => String.eqb (text (a_alias a)) (text name)) (set_optional (Some true)) (pb_aliases p) with
  | Some l => with_aliases p l
  | None => with_aliases p (pb_aliases p ++ [mkAlias name (Some false) 0 None false])
  end.

(** [Builder::set_sub_aliases], :264-293 *)
Definition set_sub_aliases (base : prod_build) (prods : list prod_build) : list prod_build :=
  let base_aliases := map a_alias (pb_aliases base) in
  let prods_aliases := filter (fun s => negb (existsb (span_eqb s) base_aliases)) (dedup (map a_alias (flat_map pb_aliases prods))) in
  let names := order base prods prods_aliases in
  map (fun p => fold_left sub_alias names p) prods.

(** [get_definition], :182-194 *)
Definition definition (s : span) : span := match bm_get (text s) defs with Some d => d | None => s end.

(** the [None] aliases added to the production without an optional group, :223-234 *)
Definition add_missing (clone : bool) (p : prod_build) (a : item_alias) : prod_build :=
  if existsb (fun b => span_eqb (a_alias b) (a_alias a)) (pb_aliases p) then p
  else with_aliases p (pb_aliases p ++ [mkAlias (a_alias a) (Some false) 0 None clone]).

(** [Builder::get_from_single_production], :158-259, with the loop over [pipe] as recursion;
    [many n origin pipe] is [Builder::get_production], :146-156 *)
Fixpoint single (fuel : nat) (prod : prod_build) (pipe : list gramem) : res (list prod_build) :=
  match fuel with
  | 0 => Fuel
  | S n =>
      let many origin pipe :=
        match pipe with
        | [] => Val origin
        | _ => do l <- mapM (fun o => single n o pipe) origin; Val (List.concat l)
        end in
      match pipe with
      | [] => Val [prod]
      | g :: rest =>
          match g_ast g with
          | ARuleItem item is_optional alias clone =>
              let prod := match alias with
                | Some a => push_alias prod (mkAlias a (if is_optional then Some true else None) 0 None clone)
                | None => prod
                end in
              match tk_ty item with
              | StrLit | IdentPath =>
                  let prod' := with_production prod (pb_production prod ++ [definition (g_span item)]) in
                  if is_optional then
                    do al <- match alias with Some _ => map_last (set_optional (Some false)) (pb_aliases prod) | None => Val (pb_aliases prod) end;
                    many [prod'; with_aliases prod al] rest
                  else single n prod' rest
              | Rule =>
                  match g_ast item with
                  | ARule variants =>
                      do '(prod, prods) <- foldM (fun '(prod, prods) '(variant, a) =>
                          if span_eqb a (0, 0) then
                            do al <- match alias with
                              | Some _ => map_last (set_final (Some (List.length (pb_production prod) + List.length variant))) (pb_aliases prod)
                              | None => Val (pb_aliases prod)
                              end;
                            let prod := with_aliases prod al in
                            do news <- single n prod variant;
                            Val (prod, prods ++ news)
                          else Panic P_assert) variants (prod, []);
                      let prods := set_sub_aliases prod prods in
                      do prods <- (if is_optional then
                          do al <- match alias with Some _ => map_last (set_optional (Some false)) (pb_aliases prod) | None => Val (pb_aliases prod) end;
                          do p0 <- expect P_index (nth_error prods 0);
                          Val (prods ++ [fold_left (add_missing clone) (pb_aliases p0) (with_aliases prod al)])
                        else Val prods);
                      many prods rest
                  | _ => Panic P_unlisted
                  end
              | _ => Panic P_unlisted
              end
          | _ => Panic P_unlisted
          end
      end
  end.

Definition many (fuel : nat) (origin : list prod_build) (pipe : list gramem) : res (list prod_build) :=
  match pipe with
  | [] => Val origin
  | _ => do l <- mapM (fun o => single fuel o pipe) origin; Val (List.concat l)
  end.
End Builder.

(** [Builder], :14-20 *)
Record builder := mkBuilder { b_aliases : bmap string span; b_rules : bmap string (list prod_build); b_imports : list span }.
(** [Builder::default] *)
Definition builder_new : builder := mkBuilder [] [] [].

Section Process.
Variable text : span -> string.
Variable order : prod_build -> list prod_build -> list span -> list span.

(** [Builder::rule_decl], :119-144 *)
Definition rule_decl (fuel : nat) (b : builder) (ident ty : span) (rule : list (list gramem * span)) : res builder :=
  do l <- mapM (fun '(pipe, cb) =>
      if String.eqb (text cb) "" then Panic P_assert
      else many text order (b_aliases b) fuel [mkProd [] cb ty []] pipe) rule;
  match bm_get (text ident) (b_rules b) with
  | Some _ => Panic P_assert
  | None => Val (mkBuilder (b_aliases b) (bm_insert (text ident) (List.concat l) (b_rules b)) (b_imports b))
  end.

(** [Builder::token_decl], :295-304 *)
Definition token_decl (b : builder) (tk alias : span) : res builder :=
  match bm_get (text tk) (b_aliases b) with
  | Some _ => Panic P_assert
  | None => Val (mkBuilder (bm_insert (text tk) alias (b_aliases b)) (b_rules b) (b_imports b))
  end.

(** [Builder::use_decl], :306-308 *)
Definition use_decl (b : builder) (decl : span) : builder := mkBuilder (b_aliases b) (b_rules b) (b_imports b ++ [decl]).

(** [Builder::process], :105-117, and [get_program_instructions], :97-103 *)
Definition process (fuel : nat) (b : builder) (ast : gramem) : res builder :=
  match g_ast ast with
  | AProgram decls =>
      foldM (fun b decl => match g_ast decl with
        | ARuleDecl ident ty rule => rule_decl fuel b ident ty rule
        | AImport s => Val (use_decl b s)
        | AAlias tk alias => token_decl b tk alias
        | _ => Panic P_unlisted
        end) decls b
  | _ => Panic P_unlisted
  end.

(** [Builder::from_str], :395-402, from the token sequence on *)
Definition from_tokens (dbg : bool) (fuel : nat) (toks : list (token sym (res meta))) : res (builder + error sym) :=
  do g <- wop_grammar dbg;
  do t <- slr_new dbg fuel g;
  do d <- parser_dfa t toks wop_maps;
  do '(d, o) <- dfa_start fuel d;
  match o with
  | Err e => Val (inr e)
  | Ok =>
      do it <- expect P_index (nth_error (rev (d_items d)) 0);
      do m <- tk_item it;
      do b <- process fuel builder_new (mkTok m (tk_ty it));
      Val (inl b)
  end.

(** ** The emitted code *)

(** the argument of [Rule::new] in the code written by [write_rule], :330-344 *)
Definition dump_rule (prods : list prod_build) : list (list string) := map (fun p => map text (pb_production p)) prods.
(** [dump_grammar], :314-325 *)
Definition dump_grammar (b : builder) : list (string * list (list string)) := map (fun e => (fst e, dump_rule (snd e))) (b_rules b).

(** one statement written by [ItemAlias::write], :58-84: name, [Some(true)]/[Some(false)]/[None],
    index or range, and whether it clones *)
Record binding := mkBind { bd_name : string; bd_optional : option bool; bd_index : nat; bd_final : option nat; bd_clone : bool }.
Definition write_alias (a : item_alias) : binding := mkBind (text (a_alias a)) (a_optional a) (a_index a) (a_final a) (a_clone a).
(** the text of that statement, :58-84, with the newline of [writeln!] *)
Definition digits (n : nat) : string := NilZero.string_of_uint (Nat.to_uint n).
Definition binding_text (b : binding) : string :=
  (let index := match bd_final b with None => digits (bd_index b) | Some f => digits (bd_index b) ++ ".." ++ digits f end in
   let suffix := if bd_clone b then match bd_final b with None => "].clone()" | Some _ => "].to_vec()" end else "]" in
   let prefix := if bd_clone b then "toks[" else "&toks[" in
   let alias := bd_name b in
   match bd_optional b with
   | Some true => "let " ++ alias ++ " = Some(" ++ prefix ++ index ++ suffix ++ ");"
   | Some false => "let mut " ++ alias ++ " = Some(" ++ prefix ++ "0" ++ suffix ++ "); " ++ alias ++ " = None; let " ++ alias ++ " = " ++ alias ++ ";"
   | None => "let " ++ alias ++ " = " ++ prefix ++ index ++ suffix ++ ";"
   end ++ String (Ascii.ascii_of_nat 10) EmptyString)%string.
(** [s.strip_prefix("->").unwrap().strip_suffix('%').unwrap()], :381 *)
Definition strip_prefix (p s : string) : option string :=
  if String.prefix p s then Some (substring (String.length p) (String.length s - String.length p) s) else None.
Fixpoint strip_suffix (c : Ascii.ascii) (s : string) : option string :=
  match s with
  | EmptyString => None
  | String a EmptyString => if Ascii.eqb a c then Some EmptyString else None
  | String a s' => option_map (String a) (strip_suffix c s')
  end.
Definition code_body (s : string) : res string := do b <- expect P_expect (strip_prefix "->" s); expect P_expect (strip_suffix "%" b).
(** [write_rule_reduction], :365-390: the [i]-th function holds the bindings and code block of the
    [i]-th production, and the vector lists the functions in order; it reads [prods[0].ty] *)
Definition dump_reductors (prods : list prod_build) : res (list (list binding * string)) :=
  do _ <- expect P_index (nth_error prods 0);
  mapM (fun p => do c <- code_body (text (pb_codeblock p)); Val (map write_alias (pb_aliases p), c)) prods.
(** [dump_reductor], :350-363, without the check that an entry type was given *)
Definition dump_reductor (b : builder) : res (list (string * list (list binding * string))) :=
  mapM (fun e => do r <- dump_reductors (snd e); Val (fst e, r)) (b_rules b).
End Process.

(** ** What a binding does when the reductor runs on [toks] *)
Inductive bound (A : Type) :=
| One (a : A)             (* toks[i] or its clone *)
| Slice (l : list A)      (* toks[i..f] or its copy *)
| Present (b : bound A)   (* Some(..) *)
| Absent.                 (* None *)
Arguments One {A}. Arguments Slice {A}. Arguments Present {A}. Arguments Absent {A}.

(** [toks[i]], [toks[i..f]] *)
Definition fetch {A} (toks : list A) (i : nat) (f : option nat) : res (bound A) :=
  match f with
  | None => do a <- expect P_index (nth_error toks i); Val (One a)
  | Some f => if (i <=? f) && (f <=? List.length toks) then Val (Slice (firstn (f - i) (skipn i toks))) else Panic P_index
  end.
Definition run_binding {A} (toks : list A) (b : binding) : res (bound A) :=
  match bd_optional b with
  | None => fetch toks (bd_index b) (bd_final b)
  | Some true => do x <- fetch toks (bd_index b) (bd_final b); Val (Present x)
  | Some false => do _ <- expect P_index (nth_error toks 0); Val Absent
  end.
