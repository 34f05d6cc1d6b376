(** The Rust text [wop] writes, and its [main].

    Simplifications.
    - The [HashMap] of rules is iterated in an order [iter] that is a parameter.
    - [main]'s prints and its file handling are left out: its outcome is the text written to
      out.rs and whether it returns [Ok].  Slices of the source are taken by the total [text];
      WopPrint.v models them with their panics, and what is printed. *)
From Coq Require Import List Bool Arith Ascii String.
From Verif Require Import BTree Model Strings Wop.
Import ListNotations.
Local Open Scope string_scope.

Definition nl : string := String (ascii_of_nat 10) "".
Definition tab : string := String (ascii_of_nat 9) "".

(** ** Running an emitted reductor *)

(** the [let] statements in order, giving the names bound and their values; a statement binding
    [toks] hides the argument, and what it bound can be indexed only if it is a slice or vector *)
Fixpoint run_all {A} (toks : list A) (bs : list binding) : res (list (string * bound A)) :=
  match bs with
  | nil => Val nil
  | b :: bs' =>
      do v <- run_binding toks b;
      do l <- (if String.eqb (bd_name b) "toks" then match v with Slice l => run_all l bs' | _ => Panic P_unlisted end else run_all toks bs');
      Val (cons (bd_name b, v) l)
  end.
(** the whole function, /repo/wop/src/builder.rs:377-383: the block, then
    [Span::new(toks[0].item.span.start, toks.last().unwrap().item.span.end)]; [code] is what the
    code block computes from the names *)
Definition run_reductor {A B} (code : list (string * bound A) -> B) (bs : list binding) (toks : list A) : res (B * (A * A)) :=
  do env <- run_all toks bs;
  do a <- expect P_index (nth_error toks 0);
  do z <- expect P_expect (nth_error (rev toks) 0);
  Val (code env, (a, z)).

Section Text.
Variable text : span -> string.

(** the [use] lines, /repo/wop/src/builder.rs:316-318 and :353-355 *)
Definition use_lines (b : builder) : string := String.concat "" (map (fun i => tab ++ "use " ++ text i ++ ";" ++ nl) (b_imports b)).
(** [write_rule], :330-344 *)
Definition write_prod (p : prod_build) : string :=
  tab ++ tab ++ "vec![" ++ String.concat "" (map (fun g => text g ++ ", ") (pb_production p)) ++ "]," ++ nl.
Definition write_rule (name : string) (prods : list prod_build) : string :=
  tab ++ "map.insert(" ++ name ++ ", lrp::grammar::Rule::new(" ++ name ++ ", vec![" ++ nl ++
  String.concat "" (map write_prod prods) ++ nl ++ tab ++ "]));" ++ nl.
(** [dump_grammar], :314-325, [rules] being the rules in the order of iteration *)
Definition dump_grammar_text (b : builder) (rules : list (string * list prod_build)) : string :=
  "{" ++ nl ++ use_lines b ++ tab ++ "let mut map = lrp::RuleMap::new();" ++ nl ++
  String.concat "" (map (fun e => write_rule (fst e) (snd e)) rules) ++ nl ++ tab ++ "map" ++ nl ++ "}".

(** the name of the [i]-th reductor of a rule, :379 and :387 *)
Definition fn_name (name : string) (i : nat) : string := "lrp_wop_" ++ name ++ "_" ++ digits i.
(** one reductor, :373-383 *)
Definition write_reductor (entry_type name ty : string) (i : nat) (p : prod_build) : res string :=
  do c <- code_body (text (pb_codeblock p));
  Val (tab ++ "fn " ++ fn_name name i ++ "(toks: &[" ++ entry_type ++ "]) -> lrp::Meta<" ++ ty ++ "> {" ++ nl ++
       tab ++ tab ++ "lrp::Meta::new({ " ++ String.concat "" (map (fun a => binding_text (write_alias text a)) (pb_aliases p)) ++ " " ++ c ++
       "}, lrp::Span::new(toks[0].item.span.start, toks.last().unwrap().item.span.end))" ++ nl ++ tab ++ "}" ++ nl).
(** [enumerate] *)
Fixpoint enum {A} (i : nat) (l : list A) : list (nat * A) := match l with [] => [] | a :: l' => (i, a) :: enum (S i) l' end.
(** [write_rule_reduction], :365-390 *)
Definition write_rule_reduction (entry_type name : string) (prods : list prod_build) : res string :=
  do p0 <- expect P_index (nth_error prods 0);
  do fs <- mapM (fun x => write_reductor entry_type name (text (pb_ty p0)) (fst x) (snd x)) (enum 0 prods);
  Val (String.concat "" fs ++ tab ++ "map.insert(" ++ name ++ ", vec![" ++
       String.concat "" (map (fun x => fn_name name (fst x) ++ ", ") (enum 0 prods)) ++ tab ++ "]);" ++ nl ++ nl).
(** [dump_reductor], :350-363; [assert_ne!] on the entry type *)
Definition dump_reductor_text (entry_type : string) (b : builder) (rules : list (string * list prod_build)) : res string :=
  if String.eqb entry_type "" then Panic P_assert else
  do rs <- mapM (fun e => write_rule_reduction entry_type (fst e) (snd e)) rules;
  Val ("{" ++ nl ++ use_lines b ++ tab ++ "let mut map = lrp::ReductMap::new();" ++ nl ++ nl ++ String.concat "" rs ++ tab ++ "map" ++ nl ++ "}").

(** [GRAMMAR_LINTS], [REDUCTOR_LINTS], :10-12 *)
Definition grammar_lints : string := "unused_imports, clippy::enum_glob_use".
Definition reductor_lints : string :=
  "non_snake_case, clippy::enum_glob_use, unused_braces, unused_imports, unused_assignments, clippy::unnecessary_literal_unwrap".

(** the contents of out.rs, /repo/wop/src/main.rs:43-68 *)
Definition write_out (b : builder) (rules : list (string * list prod_build)) : res string :=
  do r <- dump_reductor_text "Gramem" b rules;
  Val (nl ++ "use crate::{Ast, Gramem, Meta, Sym};" ++ nl ++ "use lrp::{Grammar, ReductMap, Span};" ++ nl ++ nl ++
       "#[allow(" ++ grammar_lints ++ ")]" ++ nl ++ "#[must_use]" ++ nl ++ "pub fn grammar() -> Grammar<Sym> {" ++ nl ++
       "    Grammar::new(Sym::EntryPoint, " ++ dump_grammar_text b rules ++ ", Sym::Eof)" ++ nl ++ "}" ++ nl ++
       nl ++ "#[allow(" ++ reductor_lints ++ ")]" ++ nl ++ "pub fn reduct_map() -> ReductMap<Meta<Ast>, Sym> " ++ r ++ nl).

Variable order : prod_build -> list prod_build -> list span -> list span.
Variable iter : list (string * list prod_build) -> list (string * list prod_build).

(** [main], :10-71, from the tokens on: the file is written, from whatever lies at the bottom of
    the stack, also after a syntax error; only then the outcome of the parse is returned.
    [dfa.trace] is [dfa_start], as its observer only prints (C55); a panic of a reductor, which the
    model keeps in the value made ([wop_maps]), ends the run *)
Definition wop_main (dbg : bool) (fuel : nat) (toks : list (token sym (res meta))) : res (outcome sym * string) :=
  do g <- wop_grammar dbg;
  do t <- slr_new dbg fuel g;
  do d <- parser_dfa t toks wop_maps;
  do '(d, o) <- dfa_start fuel d;
  do _ <- mapM tk_item (d_items d);
  do it <- expect P_index (nth_error (rev (d_items d)) 0);
  do m <- tk_item it;
  do b <- process text order fuel builder_new (mkTok m (tk_ty it));
  do s <- write_out b (iter (b_rules b));
  Val (o, s).
End Text.
