(** The [lrp] binary, /repo/src/main.rs: setting up the parser, and one turn of the loop that
    reads lines.  Input and output are not modelled; [print_proc_dfa] is in Trace.v, the tables
    it prints first are in Show.v. *)
From Coq Require Import List Ascii String NArith.
From Verif Require Import BTree Strings Model Show Trace.
Import ListNotations.
Local Open Scope string_scope.
Local Open Scope list_scope.

(** the grammar, /repo/src/main.rs:11-19 and 36 *)
Definition main_rules : list (string * list (list string)) :=
  [("'S", [["S"]]);
   ("S", [["("; ")"]; ["("; "S"; ")"]; ["["; "]"]; ["["; "S"; "]"]; ["{"; "}"]; ["{"; "S"; "}"]])].
Definition main_grammar (dbg : bool) : res (grammar string) := grammar_new dbg "'S" (grammar_map main_rules) "$".

(** the set of terminals, /repo/src/main.rs:35 *)
Definition main_terminals : bset string := bs_of_list ["["; "]"; "("; ")"; "{"; "}"; "d"; "c"].

(** what is done before the loop, /repo/src/main.rs:36-45: the parser and the three printed tables *)
Definition main_setup (dbg : bool) (fuel : nat) :=
  do g <- main_grammar dbg;
  do '(t, p) <- lalr_new dbg fuel g;
  do rows <- states_table (Some p) t;
  Val (t, (tokens_table t, rows, actions_table t)).

(** [char::is_whitespace] on ASCII; a line is a sequence of ASCII characters here.  (A character
    beyond ASCII is in no terminal, so that it leads to the panic of [unwrap] like any other
    unknown character; but Unicode white space at the ends of a line would be trimmed.) *)
Definition is_space (c : ascii) : bool := let n := N_of_ascii c in ((9 <=? n) && (n <=? 13) || (n =? 32))%N%bool.

(** [str::trim] *)
Fixpoint trim_start (l : list ascii) : list ascii :=
  match l with
  | [] => []
  | c :: l' => if is_space c then trim_start l' else l
  end.
Definition trim (l : list ascii) : list ascii := rev (trim_start (rev (trim_start l))).

(** the tokens of a line, /repo/src/main.rs:54-59.  The iterator is lazy, but the first row of
    [print_proc_dfa] already runs through a copy of it. *)
Definition main_input (line : list ascii) : res (list (token string unit)) :=
  mapM (fun c => do s <- expect P_expect (find (eqb (String c EmptyString)) main_terminals); Val (mkTok tt s)) (trim line).

(** one turn of the loop, /repo/src/main.rs:47-61: the rows printed and the outcome
    ([simple_dfa], /repo/src/parser.rs:50-55, is [dfa] with [empty]) *)
Definition main_line (fuel : nat) (t : tabler string) (line : list ascii) : res (list (proc_row string) * outcome string) :=
  do toks <- main_input line;
  do d <- parser_dfa t toks (empty_map (t_grammar t));
  do '(rows, _, o) <- print_proc_dfa fuel d;
  Val (rows, o).
