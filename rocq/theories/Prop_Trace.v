(** C95 (an observed run), C96 (its length), C97 (the printed run), C98 (the binary) *)
From Coq Require Import List Bool Arith Ascii String.
From Verif Require Import BTree Model Show Strings Spec SpecP LR1Spec Interface Wrap Check Examples Refute2 Trace TraceSpec TraceP TraceRow Binary BinarySpec BinaryP BinaryTables TraceEx.
Import ListNotations.
Local Open Scope string_scope.
Local Open Scope list_scope.
Local Notation length := List.length.

(** ** C95 *)
(** An observer that only looks does not change what the parser does: result, final parser, panics
    and non-termination of [trace] are those of [start], from every parser state and table. *)
Theorem C95_observed : forall (T : Type) (OT : Ord T) (M A : Type) (f : A -> dfa T M -> A) fuel a d,
  dfa_start fuel d = (do '(_, d', o) <- dfa_trace_with (looking f) fuel a d; Val (d', o)).
Proof. exact @trace_is_start. Qed.
Print Assumptions C95_observed.

(** What it sees is a shift-reduce parse done by hand: stack and remaining input start as nothing and
    the input, and each observation follows from the one before by shifting a token or by replacing a
    right-hand side at the end of the stack.  If the run succeeds (start symbol in no right-hand side),
    the stacks with the remaining input, read backwards, are a rightmost derivation of the input. *)
Theorem C95_derivation : forall (T : Type) (OT : Ord T) (dbg : bool) (start eof : T) (rules : rulemap T) (g : grammar T),
  wf_rules rules -> grammar_new dbg start rules eof = Val g -> forall M (maps : reductmap T M) k t, makes k dbg g t -> term rules eof ->
  forall A (f : A -> dfa T M -> A) fuel a input d a' d' o, Forall (term rules) (map tk_ty input) -> parser_dfa t input maps = Val d ->
  dfa_trace_with (looking f) fuel a d = Val (a', d', o) ->
  exists cs, a' = fold_left f (d :: cs) a /\ Forall (reaches t input maps) (d :: cs) /\ shown d = ([], map tk_ty input) /\
    linked (shift_reduce rules) (shown d) (map shown cs) /\
    (o = Ok -> start_fresh rules start -> exists rhs, prod_at rules start 0 rhs /\ shown (last cs d) = (rhs, []) /\
       Forall (fun c => rms rules [start] (fst (shown c) ++ snd (shown c))) (d :: cs)).
Proof. exact @trace_derivation. Qed.
Print Assumptions C95_derivation.

(** 1 + ( 2 + 3 ): [calc_seen] lists the observations from the last to the first *)
Example C95_example : wf_rules calc /\ grammar_new true "Z" calc "$" = Val (calc_g true) /\ term calc "$" /\ start_fresh calc "Z" /\
  Forall (term calc) (map tk_ty calc_input) /\ forall k, makes k true (calc_g true) (calc_tab k) /\ parser_dfa (calc_tab k) calc_input calc_maps = Val (calc_dstart k) /\
  exists d', dfa_trace_with (looking (fun l d => shown d :: l)) 40 [] (calc_dstart k) = Val (calc_seen, d', Ok).
Proof. exact (conj calc_wf (conj (calc_gE true) (conj calc_eof (conj calc_fresh (conj calc_input_terms (fun k => conj (calc_makes k) (calc_observed k))))))). Qed.
Print Assumptions C95_example.

(** ** C96 *)
(** A parse that returns takes at most (2 * rules + 1) * tokens + 1 rounds, by every method, also with
    conflicts: [n + 3] units of fuel are enough, [n] being the number of rounds.  (A round calls
    [travel] at most twice.) *)
Theorem C96_linear : forall (T : Type) (OT : Ord T) (dbg : bool) (start eof : T) (rules : rulemap T) (g : grammar T),
  wf_rules rules -> grammar_new dbg start rules eof = Val g -> forall M (maps : reductmap T M) k t, makes k dbg g t -> term rules eof ->
  forall input d, Forall (term rules) (map tk_ty input) -> parser_dfa t input maps = Val d -> (exists r, parses t input maps r) ->
  exists n d' o, n <= (2 * length rules + 1) * length input + 1 /\
    forall fuel, n + 3 <= fuel -> dfa_start fuel d = Val (d', o) /\ dfa_trace_with (looking (fun n _ => S n)) fuel 0 d = Val (n, d', o).
Proof. exact @linear_rounds. Qed.
Print Assumptions C96_linear.

(** Every parse of a [Clr] parser, and of any parser for rules without unit cycles, does return. *)
Theorem C96_total : forall (T : Type) (OT : Ord T) (dbg : bool) (start eof : T) (rules : rulemap T) (g : grammar T),
  wf_rules rules -> grammar_new dbg start rules eof = Val g -> forall M (maps : reductmap T M) k t, makes k dbg g t -> term rules eof ->
  forall input d, covers rules maps -> k = CLR \/ no_unit_cycle rules -> Forall (term rules) (map tk_ty input) -> parser_dfa t input maps = Val d ->
  exists n d' o, n <= (2 * length rules + 1) * length input + 1 /\
    forall fuel, n + 3 <= fuel -> dfa_start fuel d = Val (d', o) /\ dfa_trace_with (looking (fun n _ => S n)) fuel 0 d = Val (n, d', o).
Proof. exact @linear_total. Qed.
Print Assumptions C96_total.

(** 16 rounds for 7 tokens (the bound is 50) *)
Example C96_example : wf_rules calc /\ grammar_new true "Z" calc "$" = Val (calc_g true) /\ term calc "$" /\ covers calc calc_maps /\ no_unit_cycle calc /\
  length calc = 3 /\ length calc_input = 7 /\
  Forall (term calc) (map tk_ty calc_input) /\ forall k, makes k true (calc_g true) (calc_tab k) /\ parser_dfa (calc_tab k) calc_input calc_maps = Val (calc_dstart k) /\
  exists d', dfa_trace_with (looking (fun n _ => S n)) 40 0 (calc_dstart k) = Val (16, d', Ok).
Proof. exact (conj calc_wf (conj (calc_gE true) (conj calc_eof (conj calc_covers (conj calc_nounit (conj eq_refl (conj eq_refl (conj calc_input_terms (fun k => conj (calc_makes k) (calc_counted k)))))))))). Qed.
Print Assumptions C96_example.

(** ** C97 *)
(** The table printed by [print_proc_dfa]: it ends like [start]; its steps are numbered from 1; it
    begins with state 0 and the whole input; every row shows what the action table has for its last
    state and next symbol; carrying out this action by hand gives the next row; and the outcome is
    the one that goes with the last row (in particular "n/a" stands in the last row only, and only
    for an unexpected token). *)
Theorem C97_printed_run : forall (T : Type) (OT : Ord T) (dbg : bool) (start eof : T) (rules : rulemap T) (g : grammar T),
  wf_rules rules -> grammar_new dbg start rules eof = Val g -> forall M (maps : reductmap T M) k t, makes k dbg g t -> term rules eof ->
  forall fuel input d rows d' o, Forall (term rules) (map tk_ty input) -> parser_dfa t input maps = Val d -> print_proc_dfa fuel d = Val (rows, d', o) ->
  dfa_start fuel d = Val (d', o) /\ map r_step rows = seq 1 (length rows) /\ Forall (addressed t) rows /\
  exists r rest, rows = r :: rest /\ r_stack r = [inl 0] /\ r_buffer r = map tk_ty input ++ [eof] /\
    linked (next_row rules t) r rest /\ outcome_of t eof (last rest r) o.
Proof. exact @proc_table. Qed.
Print Assumptions C97_printed_run.

(** the five rows for 1 + + *)
Example C97_example : wf_rules calc /\ grammar_new true "Z" calc "$" = Val (calc_g true) /\ term calc "$" /\ makes LALR true (calc_g true) (calc_tab LALR) /\
  Forall (term calc) (map tk_ty calc_bad) /\
  (parser_dfa (calc_tab LALR) calc_bad calc_maps = Val (dfa_new calc_bad (t_actions (calc_tab LALR)) calc_maps "$") /\
   exists d', print_proc_dfa 40 (dfa_new calc_bad (t_actions (calc_tab LALR)) calc_maps "$") = Val (bad_rows, d', Err (UnexpectedToken "+" ["("; "T"; "n"]))) /\
  map (fun r => (r_step r, r_buffer r, match r_action r with Some _ => true | None => false end)) bad_rows =
    [(1, ["n"; "+"; "+"; "$"], true); (2, ["+"; "+"; "$"], true); (3, ["+"; "+"; "$"], true); (4, ["+"; "+"; "$"], true); (5, ["+"; "$"], false)] /\
  map (fun r => length (r_stack r)) bad_rows = [1; 3; 3; 3; 5].
Proof. exact (conj calc_wf (conj (calc_gE true) (conj calc_eof (conj (calc_makes LALR) (conj calc_bad_terms (conj calc_bad_shown calc_bad_rows)))))). Qed.
Print Assumptions C97_example.

(** ** C98 *)
(** The binary gets through its setup, all three tables included.  For a line that, without the white
    space around it, has only characters it knows, it prints at most 5 rows per character and one more,
    then "ok" exactly if the line consists of brackets inside brackets, and otherwise reports an
    unexpected token; any other line makes it panic. *)
Theorem C98_binary : forall dbg, exists t tables, (exists fuel, main_setup dbg fuel = Val (t, tables)) /\
  forall line, exists w, trimmed line w /\
  (~ Forall known w -> forall fuel, main_line fuel t line = Panic P_expect) /\
  (Forall known w -> exists rows o, length rows <= 5 * length w + 1 /\
     (forall fuel, 5 * length w + 4 <= fuel -> main_line fuel t line = Val (rows, o)) /\
     (nested w -> o = Ok) /\ (~ nested w -> exists x es, o = Err (UnexpectedToken x es))).
Proof. exact main_lines. Qed.
Print Assumptions C98_binary.

(** trimming a line has one result, so that [w] above is determined *)
Theorem C98_trimmed : forall line w1 w2, trimmed line w1 -> trimmed line w2 -> w1 = w2.
Proof. exact trimmed_fun. Qed.
Print Assumptions C98_trimmed.

(** The tables it prints first: the FIRST and FOLLOW sets of both nonterminals; one row for each move of the table, with the state moved to; a row for each
    of the 14 states, with the entries of the table below the terminals, then the state's number, then those below the nonterminals. *)
Theorem C98_tables : forall dbg fuel t toks rows acts, main_setup dbg fuel = Val (t, (toks, rows, acts)) ->
  length (t_states t) = 14 /\
  toks = [("'S", ["("; "["; "{"], ["$"]); ("S", ["("; "["; "{"], ["$"; ")"; "]"; "}"])] /\
  (NoDup (map (fun '(q, x, _, _, _) => (q, x)) rows) /\ forall q x n, (exists fk c, In (q, x, fk, n, c) rows) <-> moves t q x n) /\
  length acts = 14 /\
  (forall q row, nth_error (t_actions t) q = Some row ->
     nth_error acts q = Some (map (fun x => bm_get x row) ["$"; "("; ")"; "["; "]"; "{"; "}"], q, map (fun x => bm_get x row) ["'S"; "S"])).
Proof. exact main_tables. Qed.
Print Assumptions C98_tables.

Example C98_example : forall dbg, said dbg ["  ([{}]) "; "()()"; ""; "(x)"] =
  Val [Val (10, Ok); Val (3, Err (UnexpectedToken "(" ["$"; ")"; "]"; "}"])); Val (1, Err (UnexpectedToken "$" ["("; "S"; "["; "{"])); Panic P_expect].
Proof. exact main_example. Qed.
Print Assumptions C98_example.
