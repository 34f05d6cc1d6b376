(** C40 and the sharpened C54, C61 (printed tables), C55 (printed trace) *)
From Coq Require Import List Bool Arith String.
From Verif Require Import BTree Model Show Strings Spec SpecP Interface Wrap Final Check More Export ShowP TokensTab Examples Refute Refute2.
Import ListNotations.
Local Open Scope string_scope.
Local Open Scope list_scope.

(** ** C40 *)
Theorem C40_resolvable : forall (T : Type) (OT : Ord T) (dbg : bool) (start eof : T) (rules : rulemap T) (g : grammar T),
  wf_rules rules -> grammar_new dbg start rules eof = Val g -> forall k t o, builds k dbg g t o ->
  forall q row x, nth_error (t_states t) q = Some row -> (exists pos, In pos row /\ at_dot pos = Some x) ->
  exists fk n c, final_kernel o (sym_filter row x) = Some fk /\ state_from_kernel o t (sym_filter row x) = Some n /\ state_from_kernel o t fk = Some n /\
    nth_error (t_states t) n = Some c /\
    forall pos, In pos row -> at_dot pos = Some x -> exists pos', In pos' c /\
      p_rule pos' = p_rule pos /\ p_seq pos' = p_seq pos /\ p_point pos' = S (p_point pos) /\ (k <> LALR -> p_look pos' = p_look pos).
Proof. exact @resolve_full. Qed.
Print Assumptions C40_resolvable.

(** ** C54: the tables printed by the binary *)
(** The states table has exactly one row per state and symbol after a dot; it names the state the action table
    moves to; kernel and state hold the positions of the state with the dot moved over the symbol. *)
Theorem C54_states_table : forall (T : Type) (OT : Ord T) (dbg : bool) (start eof : T) (rules : rulemap T) (g : grammar T),
  wf_rules rules -> grammar_new dbg start rules eof = Val g -> forall k t o, builds k dbg g t o ->
  exists rows, states_table o t = Val rows /\ NoDup (map (fun '(q, x, _, _, _) => (q, x)) rows) /\
  (forall q x, (exists fk n c, In (q, x, fk, n, c) rows) <-> exists row pos, nth_error (t_states t) q = Some row /\ In pos row /\ at_dot pos = Some x) /\
  (forall q x fk n c, In (q, x, fk, n, c) rows -> exists row, nth_error (t_states t) q = Some row /\ nth_error (t_states t) n = Some c /\ moves t q x n /\
     forall st, st = fk \/ st = c ->
       (forall pos, In pos row -> at_dot pos = Some x -> exists pos', In pos' st /\
          p_rule pos' = p_rule pos /\ p_seq pos' = p_seq pos /\ p_point pos' = S (p_point pos) /\ (k <> LALR -> p_look pos' = p_look pos)) /\
       (forall pos', In pos' st -> st = fk \/ 0 < p_point pos' -> exists pos, In pos row /\ at_dot pos = Some x /\
          p_rule pos' = p_rule pos /\ p_seq pos' = p_seq pos /\ p_point pos' = S (p_point pos))).
Proof. exact @states_rows_full. Qed.
Print Assumptions C54_states_table.

(** The actions table shows, for every state, all entries of its row, terminals before nonterminals, in order. *)
Theorem C54_actions_table : forall (T : Type) (OT : Ord T) (dbg : bool) (start eof : T) (rules : rulemap T) (g : grammar T),
  wf_rules rules -> grammar_new dbg start rules eof = Val g -> forall k t, makes k dbg g t ->
  exists ts nts, actions_columns t = (ts, nts) /\ sorted ts /\ sorted nts /\
  (forall x, In x ts <-> In x (g_symbols g) /\ term rules x) /\ (forall x, In x nts <-> In x (g_symbols g) /\ nonterm rules x) /\
  List.length (actions_table t) = List.length (t_states t) /\
  forall q row, nth_error (t_actions t) q = Some row ->
    nth_error (actions_table t) q = Some (map (fun x => bm_get x row) ts, q, map (fun x => bm_get x row) nts) /\
    forall x a, bm_get x row = Some a -> In x (ts ++ nts).
Proof. exact @actions_rows. Qed.
Print Assumptions C54_actions_table.

(** The tokens table zips FIRST with FOLLOW by position: a rule used by no other rule has no FOLLOW set and shifts the
    column, so that the table shows a wrong FOLLOW set. *)
Theorem C61_tokens_table_refuted : exists (rules : rulemap string) (start eof A : string) (g : grammar string),
  wf_rules rules /\ grammar_new true start rules eof = Val g /\ term rules eof /\ start_fresh rules start /\ nonterm rules A /\
  forall k, exists t f w w', makes k true g t /\ In (A, f, w) (tokens_table t) /\ bm_get A (t_follow t) = Some w' /\ w <> w'.
Proof. exact unused_refutes. Qed.
Print Assumptions C61_tokens_table_refuted.

(** It is right when every rule but the start rule is used by another rule.  Missing: grammars as above. *)
Theorem C61_tokens_table_partial : forall (T : Type) (OT : Ord T) (dbg : bool) (start eof : T) (rules : rulemap T) (g : grammar T),
  wf_rules rules -> grammar_new dbg start rules eof = Val g -> forall k t, makes k dbg g t ->
  (forall A, nonterm rules A -> A <> start -> exists B i rhs, prod_at rules B i rhs /\ In A rhs /\ A <> B) ->
  (forall A f w, In (A, f, w) (tokens_table t) <-> bm_get A (t_first t) = Some f /\ bm_get A (t_follow t) = Some w) /\
  map (fun r => fst (fst r)) (tokens_table t) = bm_keys rules.
Proof. exact @tokens_rows. Qed.
Print Assumptions C61_tokens_table_partial.

(** In general the n-th row gives the n-th nonterminal and its FIRST set, and the FOLLOW set of the n-th of those nonterminals that have one:
    the start symbol, and what stands in some production other than at the end of one of its own.  So the table is right exactly if the
    nonterminals that have none come after all others. *)
Theorem C61_tokens_table_exact : forall (T : Type) (OT : Ord T) (dbg : bool) (start eof : T) (rules : rulemap T) (g : grammar T),
  wf_rules rules -> grammar_new dbg start rules eof = Val g -> forall k t, makes k dbg g t ->
  (forall A, In A (bm_keys (t_follow t)) <-> followed rules start A) /\ sorted (bm_keys (t_follow t)) /\
  (forall n A f w, nth_error (tokens_table t) n = Some (A, f, w) <->
     nth_error (bm_keys rules) n = Some A /\ bm_get A (t_first t) = Some f /\ exists B, nth_error (bm_keys (t_follow t)) n = Some B /\ bm_get B (t_follow t) = Some w) /\
  ((forall A f w, In (A, f, w) (tokens_table t) <-> bm_get A (t_first t) = Some f /\ bm_get A (t_follow t) = Some w) <->
   forall A B, nonterm rules A -> ~ followed rules start A -> followed rules start B -> cmp B A = Lt).
Proof. exact @tokens_general. Qed.
Print Assumptions C61_tokens_table_exact.

(** A is used nowhere and comes before S and Z: their rows are wrong *)
Example C61_exact_example : wf_rules unused /\ grammar_new true "Z" unused "$" = Val unused_g /\ makes SLR true unused_g (tab SLR true 60 unused_g) /\
  bm_keys unused = ["A"; "S"; "Z"] /\ bm_keys (t_follow (tab SLR true 60 unused_g)) = ["S"; "Z"] /\
  tokens_table (tab SLR true 60 unused_g) = [("A", ["a"], ["$"; "y"]); ("S", ["w"; "x"], ["$"])].
Proof. exact unused_rows. Qed.

Example C40_C54_example : wf_rules calc /\ grammar_new true "Z" calc "$" = Val (calc_g true) /\
  (forall A, nonterm calc A -> A <> "Z" -> exists B i rhs, prod_at calc B i rhs /\ In A rhs /\ A <> B) /\
  forall k, makes k true (calc_g true) (calc_tab k) /\ exists o, builds k true (calc_g true) (calc_tab k) o.
Proof. exact (conj calc_wf (conj (calc_gE true) (conj calc_used (fun k => conj (calc_makes k) (calc_builds k))))). Qed.

(** ** C55: the trace *)
(** [trace] ends like [start]; it shows exactly the unfinished configurations the run goes through, each once; the
    printed stack begins with state 0 and follows every symbol by the state the table moves to. *)
Theorem C55_trace : forall (T : Type) (OT : Ord T) (dbg : bool) (start eof : T) (rules : rulemap T) (g : grammar T),
  wf_rules rules -> grammar_new dbg start rules eof = Val g -> forall M (maps : reductmap T M) k t, makes k dbg g t -> term rules eof ->
  forall input d0 fuel l r, parser_dfa t input maps = Val d0 -> dfa_trace fuel d0 = Val (l, r) ->
  dfa_start fuel d0 = Val r /\ NoDup l /\ (forall d, In d l <-> reaches t input maps d /\ d_finished d = false) /\
  (Forall (term rules) (map tk_ty input) -> forall d, In d l -> printed t (stack_fmt d) (d_top d)).
Proof. exact @trace_full. Qed.
Print Assumptions C55_trace.

Example C55_example : wf_rules calc /\ grammar_new true "Z" calc "$" = Val (calc_g true) /\ term calc "$" /\ Forall (term calc) (map tk_ty calc_input) /\
  forall k, makes k true (calc_g true) (calc_tab k) /\ parser_dfa (calc_tab k) calc_input calc_maps = Val (calc_dstart k) /\
  exists l r, dfa_trace 40 (calc_dstart k) = Val (l, r) /\ List.length l = 16 /\ snd r = Ok.
Proof. exact (conj calc_wf (conj (calc_gE true) (conj calc_eof (conj calc_input_terms (fun k => conj (calc_makes k) (calc_trace k)))))). Qed.
