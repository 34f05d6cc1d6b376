(** What wop's [main] prints, /repo/wop/src/main.rs:14-17 and 32-33 and 73-146, and the slicing of the
    source, with its panics.

    Simplifications.
    - A line printed is a string; the lines are listed.
    - [{:?}] of a string is a parameter [debug].
    - The closure given to [map] in [main] slices a token when the parser asks for it; here all tokens
      are sliced before the run.  (They never panic, C99.)
    - The lines printed by [dfa.trace], and those with times, are left out. *)
From Coq Require Import List Bool Arith Ascii String.
From Verif Require Import BTree Model Wop WopLex WopText.
Import ListNotations.
Local Open Scope string_scope.
Local Open Scope list_scope.
Local Open Scope nat_scope.

(** ** Slicing *)

(** a byte that does not start a character: [10xxxxxx] *)
Definition continuation (c : ascii) : bool := let n := nat_of_ascii c in (128 <=? n) && (n <? 192).
(** [str::is_char_boundary], by its documentation *)
Definition boundary (src : string) (i : nat) : bool :=
  (i =? 0) || match String.get i src with Some c => negb (continuation c) | None => i =? String.length src end.
(** [src[start..end]], by the documentation of [Index<Range<usize>>] for [str]; [Span::from_source],
    /repo/src/lib.rs:125-130 *)
Definition from_source (src : string) (s : span) : res string :=
  if (fst s <=? snd s) && boundary src (fst s) && boundary src (snd s) then Val (slice src s) else Panic P_index.

(** ** Printing *)

(** [{:?}] of a [Sym], derived at /repo/wop/src/lib.rs:40 *)
Definition sym_name (s : sym) : string :=
  match s with
  | AliasWord => "AliasWord" | UseWord => "UseWord" | Assign => "Assign" | Pipe => "Pipe" | OpenParen => "OpenParen"
  | CloseParen => "CloseParen" | Sc => "Sc" | PathAccess => "PathAccess" | TwoDots => "TwoDots" | Glob => "Glob"
  | Optional => "Optional" | Clone => "Clone" | Ident => "Ident" | StrLit => "StrLit" | BlockComment => "BlockComment"
  | LineComment => "LineComment" | CodeBlock => "CodeBlock" | SymError => "Error" | Ws => "Ws" | Eof => "Eof"
  | SymToken => "Token" | EntryPoint => "EntryPoint" | Program => "Program" | Rule => "Rule" | Import => "Import"
  | Alias => "Alias" | RulePipe => "RulePipe" | RuleDecl => "RuleDecl" | IdentPath => "IdentPath" | RuleItem => "RuleItem"
  end.
Definition bool_name (b : bool) : string := if b then "true" else "false".
(** [TAB_C.repeat(lvl)], :73 *)
Definition indent (lvl : nat) : string := String.concat "" (repeat "  " lvl).
(** [\x1B[1;33m"..."\x1B[0;m] *)
Definition bright (s : string) : string :=
  (String (ascii_of_nat 27) "[1;33m""" ++ s ++ """" ++ String (ascii_of_nat 27) "[0;m")%string.

Section Print.
Variable debug : string -> string.
Variable src : string.
Local Notation "a ^^ b" := (String.append a b) (at level 60, right associativity).

(** [println!("{tab_spc}|> name: {}", bright(span.from_source(txt)))] *)
Definition field (lvl : nat) (name : string) (s : span) : res string :=
  do t <- from_source src s; Val (indent lvl ^^ "|> " ^^ name ^^ ": " ^^ bright t).
(** the line about the reductor of a production, :107-110 and :117-120 *)
Definition reductor_line (lvl i : nat) (s : span) : res string :=
  do t <- from_source src s;
  Val (indent lvl ^^ "|> reductor " ^^ digits i ^^ ": " ^^ bright (match strip_prefix "->" t with Some b => b | None => "(null)" end)).

(** [print_nested], :75-146: the line about the node, :89-94, and those about what is in it *)
Fixpoint print_ast (ty : sym) (sp : span) (a : ast) (prefix : string) (lvl0 : nat) {struct a} : res (list string) :=
  do t <- from_source src sp;
  let line := indent lvl0 ^^ prefix ^^ sym_name ty ^^ ": " ^^ bright t in
  let lvl := S lvl0 in
  let all := fix all (prefix : string) (lvl : nat) (l : list gramem) : res (list string) :=
    match l with
    | [] => Val []
    | mkTok (a, sp) ty :: l' => do x <- print_ast ty sp a prefix lvl; do y <- all prefix lvl l'; Val (x ++ y)
    end in
  let prods := fix prods (i : nat) (l : list (list gramem * span)) : res (list string) :=
    match l with
    | [] => Val []
    | (gs, cb) :: l' =>
        do x <- all "- " (S lvl) gs;
        do r <- reductor_line lvl i cb;
        do y <- prods (S i) l';
        Val ((indent lvl ^^ "|> production " ^^ digits i ^^ ":") :: x ++ r :: y)
    end in
  do rest <- match a with
    | AToken s => Val [indent lvl ^^ "|> sym: " ^^ sym_name s]
    | AEntryPoint (mkTok (a', sp') ty') => print_ast ty' sp' a' "" lvl
    | AProgram gs => all "- " lvl gs
    | ARuleDecl ident rty rule =>
        do x <- field lvl "rule_name" ident;
        do y <- field lvl "rule_type" rty;
        do z <- prods 0 rule;
        Val (x :: y :: z)
    | ARule gs => prods 0 gs
    | ARulePipe gs => all "- " lvl gs
    | AImport g => do t <- from_source src g; Val [indent lvl ^^ "|> path: " ^^ t]
    | AAlias g h => do t <- from_source src g; do u <- from_source src h; Val [indent lvl ^^ "|> alias: " ^^ t; indent lvl ^^ "|> definition: " ^^ u]
    | AIdentPath g => do t <- from_source src g; Val [indent lvl ^^ " " ^^ t]
    | ARuleItem (mkTok (a', sp') ty') o al c =>
        do x <- print_ast ty' sp' a' "" lvl;
        do n <- match al with Some s => do t <- from_source src s; Val (debug t) | None => Val "(null)" end;
        Val (x ++ [indent lvl ^^ "|> optional: " ^^ bool_name o; indent lvl ^^ "|> clone: " ^^ bool_name c; indent lvl ^^ "|> alias: " ^^ n])
    end;
  Val (line :: rest).
Definition print_nested (g : gramem) (prefix : string) (lvl : nat) : res (list string) := print_ast (tk_ty g) (g_span g) (g_ast g) prefix lvl.

(** the line about a token, :14-17 *)
Definition token_line (t : sym * span) : res string :=
  do s <- from_source src (snd t);
  Val ("""" ^^ s ^^ """ (" ^^ sym_name (fst t) ^^ ") [" ^^ digits (fst (snd t)) ^^ ".." ^^ digits (snd (snd t)) ^^ "]").
End Print.

(** the parser's run in [main], :19-31: the outcome, and what is left on the stack, bottom first *)
Definition wop_parse (dbg : bool) (fuel : nat) (ts : list (sym * span)) : res (outcome sym * list gramem) :=
  do g <- wop_grammar dbg;
  do t <- slr_new dbg fuel g;
  do d <- parser_dfa t (map (fun t => lexed (fst t) (snd t)) ts) wop_maps;
  do '(d, o) <- dfa_start fuel d;
  do items <- mapM unwrap_tok (rev (d_items d));
  Val (o, items).

(** [main], :10-71, as [wop_main] of WopText.v, with what it prints about the tokens and the tree;
    [text] stands for the slices taken by the builder *)
Definition wop_main_printing (debug : string -> string) (lg : logos) (order : prod_build -> list prod_build -> list span -> list span)
    (iter : list (string * list prod_build) -> list (string * list prod_build)) (text : span -> string) (dbg : bool) (fuel : nat) (src : string)
    : res (outcome sym * string * (list string * list string)) :=
  let ts := tokenize lg src in
  do lines <- mapM (token_line src) ts;
  do '(o, items) <- wop_parse dbg fuel ts;
  do g <- expect P_index (nth_error items 0);
  do tree <- print_nested debug src g "" 0;
  do b <- process text order fuel builder_new g;
  do s <- write_out text b (iter (b_rules b));
  Val (o, s, (lines, tree)).
