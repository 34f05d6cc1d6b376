(** wop made from its own grammar file: what the code blocks of /repo/wop/src/wop.grammar compute, and
    the front end built from the grammar and the reductors wop writes for that file.

    Simplifications, as in WopGen.v: code that would not compile is [Panic P_unlisted]; all values
    are [Ast]s, and a panicking reductor gives the value [Panic]. *)
From Coq Require Import List Bool Arith String.
From Verif Require Import BTree Model Strings Wop WopText WopGen WopBoot.
Import ListNotations.
Local Open Scope string_scope.
Local Open Scope list_scope.
Local Open Scope nat_scope.

(** ** The code blocks *)

(** what a name stands for: [Gramem], [Option<_>] of one or of a reference to one, [Vec<Gramem>] *)
Definition names : Type := string -> option (bound gramem).
Definition get_one (e : names) (n : string) : res gramem := match e n with Some (One t) => Val t | _ => Panic P_unlisted end.
Definition get_opt (e : names) (n : string) : res (option gramem) :=
  match e n with Some (Present (One t)) => Val (Some t) | Some Absent => Val None | _ => Panic P_unlisted end.
Definition get_slice (e : names) (n : string) : res (list gramem) := match e n with Some (Slice l) => Val l | _ => Panic P_unlisted end.

(** /repo/wop/src/wop.grammar:16 *)
Definition block_entry (toks : list gramem) (e : names) : res ast :=
  do p <- get_one e "p"; Val (AEntryPoint p).
(** :18-26 *)
Definition block_program (toks : list gramem) (e : names) : res ast :=
  do a <- tok_at toks 0; do v <- match g_ast a with AProgram v => Val v | _ => Panic P_unlisted end;
  do x <- get_opt e "ext"; do x <- expect P_expect x; Val (AProgram (v ++ [x])).
(** :27 *)
Definition block_first (toks : list gramem) (e : names) : res ast :=
  do p <- get_slice e "p"; Val (AProgram p).
(** :29-32 *)
Definition block_path (toks : list gramem) (e : names) : res ast :=
  do ip <- get_one e "ip"; do ext <- get_one e "ext"; Val (AIdentPath (fst (g_span ip), snd (g_span ext))).
(** :33 *)
Definition block_ident (toks : list gramem) (e : names) : res ast :=
  do t <- tok_at toks 0; Val (AIdentPath (g_span t)).
(** :35-43 *)
Definition block_decl (toks : list gramem) (e : names) : res ast :=
  do a <- tok_at toks 0; do ident <- expect P_expect (src_ref (g_ast a)); do b <- tok_at toks 2; do ty <- expect P_expect (src_ref (g_ast b));
  do c <- tok_at toks 4; do v <- match g_ast c with ARule v => Val v | _ => Panic P_unlisted end; Val (ARuleDecl ident ty v).
(** :45-55 *)
Definition block_rule (toks : list gramem) (e : names) : res ast :=
  do a <- tok_at toks 0; do vv <- match g_ast a with ARule vv => Val vv | _ => Panic P_unlisted end;
  do b <- tok_at toks 2; do v <- match g_ast b with ARulePipe v => Val v | _ => Panic P_unlisted end;
  do cb <- get_opt e "cb"; Val (ARule (vv ++ [(v, match cb with Some g => g_span g | None => (0, 0) end)])).
(** :56-61 *)
Definition block_alt (toks : list gramem) (e : names) : res ast :=
  do a <- tok_at toks 0; do v <- match g_ast a with ARulePipe v => Val v | _ => Panic P_unlisted end;
  do cb <- get_opt e "cb"; Val (ARule [(v, match cb with Some g => g_span g | None => (0, 0) end)]).
(** :63-70 *)
Definition block_pipe (toks : list gramem) (e : names) : res ast :=
  do a <- tok_at toks 0; do v <- match g_ast a with ARulePipe v => Val v | _ => Panic P_unlisted end;
  do item <- get_one e "item"; Val (ARulePipe (v ++ [item])).
(** :71-73 *)
Definition block_item (toks : list gramem) (e : names) : res ast :=
  if 1 <=? List.length toks then Val (ARulePipe (firstn 1 toks)) else Panic P_index.
(** :75-77 *)
Definition block_symbol (toks : list gramem) (e : names) : res ast :=
  do item <- get_opt e "item"; do item <- expect P_expect item; do opt <- get_opt e "opt"; do id <- get_opt e "id"; do cl <- get_opt e "cl";
  Val (ARuleItem item (is_some opt) (option_map g_span id) (is_some cl)).
(** :78-80 *)
Definition block_group (toks : list gramem) (e : names) : res ast :=
  do rule <- get_one e "rule"; do opt <- get_opt e "opt"; do id <- get_opt e "id"; do cl <- get_opt e "cl";
  Val (ARuleItem rule (is_some opt) (option_map g_span id) (is_some cl)).
(** :82-84 *)
Definition block_import (toks : list gramem) (e : names) : res ast :=
  do a <- tok_at toks 1; do z <- expect P_expect (nth_error toks (List.length toks - 1)); Val (AImport (fst (g_span a), snd (g_span z))).
(** :86-88 *)
Definition block_alias (toks : list gramem) (e : names) : res ast :=
  do a <- tok_at toks 1; do b <- tok_at toks 2; Val (AAlias (g_span a) (g_span b)).

(** the code blocks of wop.grammar by their text *)
Definition own_blocks : list (string * (list gramem -> names -> res ast)) :=
  [(" { Ast::EntryPoint(Box::new(p)) }", block_entry);
   (" { 
    let program = &toks[0];
    let mut program_vec = match program.item.item {
        Ast::Program(ref v) => v.clone(),
        _ => unreachable!(),
    };
    program_vec.push(ext.unwrap());
    Ast::Program(program_vec)
}", block_program);
   (" { Ast::Program(p) }", block_first);
   (" {
    let span = Span::new(ip.item.span.start, ext.item.span.end);
    Ast::IdentPath(span)
}", block_path);
   (" { Ast::IdentPath(toks[0].item.span) }", block_ident);
   (" {
    let ident = toks[0].item.item.get_src_ref().unwrap();
    let ty = toks[2].item.item.get_src_ref().unwrap();
    let rule_vec = match toks[4].item.item {
        Ast::Rule(ref v) => v.clone(),
        _ => unreachable!(),
    };
    Ast::RuleDecl((ident, ty, rule_vec))
}", block_decl);
   (" {
    let mut rule_vec = match toks[0].item.item {
        Ast::Rule(ref vv) => vv.clone(),
        _ => unreachable!(),
    };
    match toks[2].item.item {
        Ast::RulePipe(ref v) => rule_vec.push((v.clone(), cb.map_or_else(|| Span::new(0, 0), |g| g.item.span))),
        _ => unreachable!(),
    };
    Ast::Rule(rule_vec)
}", block_rule);
   (" {
    let Ast::RulePipe(ref prod) = toks[0].item.item else {
        unreachable!()
    };
    Ast::Rule(vec![(prod.clone(), cb.map_or_else(|| Span::new(0, 0), |g| g.item.span))])
}", block_alt);
   (" {
    let mut v = match toks[0].item.item {
        Ast::RulePipe(ref v) => v.clone(),
        _ => unreachable!(),
    };
    v.push(item);
    Ast::RulePipe(v)
}", block_pipe);
   (" {
    Ast::RulePipe(toks[..1].to_vec())
}", block_item);
   (" {
    Ast::RuleItem(Box::new(item.unwrap()), opt.is_some(), id.map(|id| id.item.span), cl.is_some())
}", block_symbol);
   (" {
    Ast::RuleItem(Box::new(rule), opt.is_some(), id.map(|id| id.item.span), cl.is_some())
}", block_group);
   (" {
    Ast::Import(Span::new(toks[1].item.span.start, toks.last().unwrap().item.span.end))
}", block_import);
   (" {
    Ast::Alias(toks[1].item.span, toks[2].item.span)
}", block_alias)].
Definition own_code (c : string) (toks : list gramem) (e : names) : res ast :=
  match find (fun x => String.eqb (fst x) c) own_blocks with Some x => snd x toks e | None => Panic P_unlisted end.

(** ** The generated front end *)

(** one emitted function, /repo/wop/src/builder.rs:373-383 *)
Definition own_reductor (f : list binding * string) : list (token sym (res meta)) -> res meta :=
  lift (fun toks => metaM (do env <- run_all toks (fst f); own_code (snd f) toks (in_scope env)) toks).
(** [use crate::Sym::*]: names are enumerators of [Sym] ([SymError] stands in for any other name) *)
Definition symbols : list sym :=
  [AliasWord; UseWord; Assign; Pipe; OpenParen; CloseParen; Sc; PathAccess; TwoDots; Glob; Optional; Clone; Ident; StrLit; BlockComment; LineComment; CodeBlock; SymError; Ws; Eof;
   SymToken; EntryPoint; Program; Rule; Import; Alias; RulePipe; RuleDecl; IdentPath; RuleItem].
Definition as_sym (n : string) : sym := match find (fun s => String.eqb (sym_name s) n) symbols with Some s => s | None => SymError end.
(** the grammar and [reduct_map()] of the generated file, given what [dump_grammar] and [dump_reductor] write *)
Definition own_rules (es : list (string * list (list string))) : list (sym * list (list sym)) := map (fun e => (as_sym (fst e), map (map as_sym) (snd e))) es.
Definition own_maps (rs : list (string * list (list binding * string))) : reductmap sym (res meta) :=
  bm_of_list (map (fun e => (as_sym (fst e), map own_reductor (snd e))) rs).
(** [build_parser] and [Builder::from_str] with another out.rs, /repo/wop/src/lib.rs:131-135 and
    /repo/wop/src/builder.rs:395-403, as [from_tokens] *)
Definition from_tokens_of (rules : list (sym * list (list sym))) (maps : reductmap sym (res meta)) (text : span -> string)
    (order : prod_build -> list prod_build -> list span -> list span) (dbg : bool) (fuel : nat) (toks : list (token sym (res meta))) : res (builder + error sym) :=
  do g <- grammar_new dbg EntryPoint (grammar_map rules) Eof;
  do t <- slr_new dbg fuel g;
  do d <- parser_dfa t toks maps;
  do '(d, o) <- dfa_start fuel d;
  match o with
  | Err e => Val (inr e)
  | Ok =>
      do it <- expect P_index (nth_error (rev (d_items d)) 0);
      do m <- tk_item it;
      do b <- process text order fuel builder_new (mkTok m (tk_ty it));
      Val (inl b)
  end.
