(** C102 to C105: what the printed texts tell; C106: the states of a table *)
From Coq Require Import List Bool Arith String Permutation.
From Verif Require Import BTree Model Show Strings Trace Spec Interface Wop WopPrint Check Examples Refute2 TraceSpec TraceEx StatesSpec StatesP TextSpec Text TextP TextF TextEx.
Import ListNotations.
Local Open Scope string_scope.
Local Open Scope list_scope.
Local Notation length := List.length.

(** ** C102 *)
(** Different errors have different messages, and none reads "ok", as the last line of a successful run does. *)
Theorem C102_messages : forall (T : Type) (show : T -> string), legible show ->
  (forall e e', error_text show e = error_text show e' -> e = e') /\ (forall o o', outcome_text show o = outcome_text show o' -> o = o').
Proof. exact @messages. Qed.
Print Assumptions C102_messages.

(** the texts of [&str] and of wop's symbols can be told apart *)
Theorem C102_legible : legible str_debug /\ legible sym_name.
Proof. exact (conj str_legible sym_legible). Qed.
Print Assumptions C102_legible.

Example C102_example : map (error_text str_debug) [UnexpectedToken "+" ["("; "T"; "n"]; UnexpectedToken "+, n" ["("]; ConflictErr (Shift 3) (Reduce "T" (["n"], 0)); IncompleteExec] =
  ["unexpected token ""+"". expected [""("", ""T"", ""n""]"; "unexpected token ""+, n"". expected [""(""]";
   "conflicting action Shift(3) and Reduce(""T"", ([""n""], 0))"; "finished the parsing without consume entire buffer"].
Proof. exact calc_error_texts. Qed.
(** without quotes they could not *)
Example C102_plain : error_text (fun s : string => s) (UnexpectedToken "x" ["a, b"]) = error_text (fun s => s) (UnexpectedToken "x" ["a"; "b"]).
Proof. exact plain_illegible. Qed.

(** ** C103 *)
(** The text of a position does not say which alternative of its rule it belongs to: if one is written twice, a
    state holds two positions with one text. *)
Theorem C103_states_refuted : exists (rules : rulemap string) (start eof : string) (g : grammar string),
  wf_rules rules /\ grammar_new true start rules eof = Val g /\ term rules eof /\ start_fresh rules start /\
  forall k, exists t q row pos pos', makes k true g t /\ nth_error (t_states t) q = Some row /\ In pos row /\ In pos' row /\ pos <> pos' /\
    pos_text str_debug pos = pos_text str_debug pos'.
Proof. exact twins_refute. Qed.
Print Assumptions C103_states_refuted.

(** Otherwise the text of a state tells its positions, also between the tables of different methods.
    Missing: grammars as above. *)
Theorem C103_states_partial : forall (T : Type) (OT : Ord T) (show : T -> string), legible show ->
  forall (dbg : bool) (start eof : T) (rules : rulemap T) (g : grammar T), wf_rules rules -> grammar_new dbg start rules eof = Val g -> no_twins rules ->
  forall k k' t t' q q' row row', makes k dbg g t -> makes k' dbg g t' -> nth_error (t_states t) q = Some row -> nth_error (t_states t') q' = Some row' ->
  state_text show row = state_text show row' -> row = row'.
Proof. exact @states_read. Qed.
Print Assumptions C103_states_partial.

Theorem C103_positions_partial : forall (T : Type) (OT : Ord T) (show : T -> string), legible show ->
  forall (dbg : bool) (start eof : T) (rules : rulemap T) (g : grammar T), wf_rules rules -> grammar_new dbg start rules eof = Val g -> no_twins rules ->
  forall k k' t t' q q' row row' pos pos', makes k dbg g t -> makes k' dbg g t' -> nth_error (t_states t) q = Some row -> nth_error (t_states t') q' = Some row' ->
  In pos row -> In pos' row' -> pos_text show pos = pos_text show pos' -> pos = pos'.
Proof. exact @poss_read. Qed.
Print Assumptions C103_positions_partial.

Example C103_example : legible str_debug /\ wf_rules calc /\ grammar_new true "Z" calc "$" = Val (calc_g true) /\ no_twins calc /\ (forall k, makes k true (calc_g true) (calc_tab k)) /\
  option_map (map (pos_text str_debug)) (nth_error (t_states (calc_tab LALR)) 5) =
    Some ["""E"" = ""E"" . ""+"" ""T""  {"")"", ""+""}"; """T"" = ""("" ""E"" . "")""  {""$"", "")"", ""+""}"].
Proof. exact (conj str_legible (conj calc_wf (conj (calc_gE true) (conj calc_twins (conj calc_makes calc_pos_texts))))). Qed.

(** ** C104 *)
(** The printed run can be read back: the text tells the rows, the outcome, the input and the end marker. *)
Theorem C104_run : forall (T : Type) (OT : Ord T) (dbg : bool) (start eof : T) (rules : rulemap T) (g : grammar T)
  (dbg' : bool) (start' eof' : T) (rules' : rulemap T) (g' : grammar T) (show : T -> string), legible show ->
  wf_rules rules -> grammar_new dbg start rules eof = Val g -> term rules eof -> wf_rules rules' -> grammar_new dbg' start' rules' eof' = Val g' -> term rules' eof' ->
  forall k t k' t', makes k dbg g t -> makes k' dbg' g' t' ->
  forall (M : Type) (maps maps' : reductmap T M) fuel fuel' input input' d d' rows rows' e e' o o',
  Forall (term rules) (map tk_ty input) -> Forall (term rules') (map tk_ty input') ->
  parser_dfa t input maps = Val d -> parser_dfa t' input' maps' = Val d' ->
  print_proc_dfa fuel d = Val (rows, e, o) -> print_proc_dfa fuel' d' = Val (rows', e', o') ->
  run_text show rows o = run_text show rows' o' -> rows = rows' /\ o = o' /\ map tk_ty input = map tk_ty input' /\ eof = eof'.
Proof. exact @run_back. Qed.
Print Assumptions C104_run.

(** the text of the run of C97's example *)
Example C104_example : run_text str_debug bad_rows (Err (UnexpectedToken "+" ["("; "T"; "n"])) =
  [["1"; "0"; "[""n"", ""+"", ""+"", ""$""]"; "0:""n"""; "Shift(4)"];
   ["2"; "0 ""n"" 4"; "[""+"", ""+"", ""$""]"; "4:""+"""; "Reduce(""T"", ([""n""], 0))"];
   ["3"; "0 ""T"" 3"; "[""+"", ""+"", ""$""]"; "3:""+"""; "Reduce(""E"", ([""T""], 1))"];
   ["4"; "0 ""E"" 2"; "[""+"", ""+"", ""$""]"; "2:""+"""; "Shift(6)"];
   ["5"; "0 ""E"" 2 ""+"" 6"; "[""+"", ""$""]"; "6:""+"""; "n/a"];
   ["state"; "unexpected token ""+"". expected [""("", ""T"", ""n""]"]].
Proof. exact calc_run_text. Qed.

(** ** C105 *)
(** In the printed actions table the number of the state stands among the actions but has no title: in every
    table the first nonterminal's title is above the numbers, and each row has a cell too many. *)
Theorem C105_headings_refuted : forall (T : Type) (OT : Ord T) (dbg : bool) (start eof : T) (rules : rulemap T) (g : grammar T),
  wf_rules rules -> grammar_new dbg start rules eof = Val g -> forall k t, makes k dbg g t -> forall show : T -> string,
  exists A j, nonterm rules A /\ nth_error (fst (actions_text show t)) j = Some (show A) /\
  forall q row, nth_error (t_actions t) q = Some row -> exists cells, nth_error (snd (actions_text show t)) q = Some cells /\
    length cells = S (length (fst (actions_text show t))) /\ nth_error cells j = Some (decimal q) /\ forall a, action_cell show a <> decimal q.
Proof. exact @heading_shifted. Qed.
Print Assumptions C105_headings_refuted.

(** Terminals' actions stand below their titles, nonterminals' one column further right.  Missing: nonterminals
    below their titles. *)
Theorem C105_headings_partial : forall (T : Type) (OT : Ord T) (dbg : bool) (start eof : T) (rules : rulemap T) (g : grammar T),
  wf_rules rules -> grammar_new dbg start rules eof = Val g -> forall k t, makes k dbg g t -> forall (show : T -> string) x, In x (g_symbols g) ->
  exists j, nth_error (fst (actions_text show t)) j = Some (show x) /\
  forall q row, nth_error (t_actions t) q = Some row -> exists cells, nth_error (snd (actions_text show t)) q = Some cells /\
    (term rules x -> nth_error cells j = Some (action_cell show (bm_get x row))) /\
    (nonterm rules x -> nth_error cells (S j) = Some (action_cell show (bm_get x row))).
Proof. exact @heading_right. Qed.
Print Assumptions C105_headings_partial.

(** Still, the text tells the whole table. *)
Theorem C105_table : forall (T : Type) (OT : Ord T) (dbg : bool) (start eof : T) (rules : rulemap T) (g : grammar T)
  (dbg' : bool) (start' eof' : T) (rules' : rulemap T) (g' : grammar T) (show : T -> string), legible show ->
  wf_rules rules -> grammar_new dbg start rules eof = Val g -> wf_rules rules' -> grammar_new dbg' start' rules' eof' = Val g' ->
  forall k t k' t', makes k dbg g t -> makes k' dbg' g' t' -> actions_text show t = actions_text show t' -> t_actions t = t_actions t'.
Proof. exact @actions_back. Qed.
Print Assumptions C105_table.

(** "E" is above the numbers of the states, "T" above the moves over E *)
Example C105_example : fst (actions_text str_debug (calc_tab LALR)) = ["""$"""; """("""; """)"""; """+"""; """n"""; """E"""; """T"""; """Z"""] /\
  firstn 3 (snd (actions_text str_debug (calc_tab LALR))) =
    [[""; "Shift(1)"; ""; ""; "Shift(4)"; "0"; "Goto(2)"; "Goto(3)"; ""];
     [""; "Shift(1)"; ""; ""; "Shift(4)"; "1"; "Goto(5)"; "Goto(3)"; ""];
     ["Acc"; ""; ""; "Shift(6)"; ""; "2"; ""; ""; ""]].
Proof. exact calc_actions_text. Qed.

(** ** C106 *)
(** No state is there twice, every state is reached from the first, and [kernels] gives each state one number;
    a kernel holds what has its dot past the beginning in its state, the first state has nothing of the kind. *)
Theorem C106_states : forall (T : Type) (OT : Ord T) (dbg : bool) (start eof : T) (rules : rulemap T) (g : grammar T),
  wf_rules rules -> grammar_new dbg start rules eof = Val g -> forall k t, makes k dbg g t ->
  NoDup (t_states t) /\
  (forall q, q < length (t_states t) -> exists qs xs, stack_path t (q :: qs) xs) /\
  Permutation (bm_values (t_kernels t)) (seq 0 (length (t_states t))) /\ bm_get [] (t_kernels t) = Some 0 /\
  (forall kernel q, bm_get kernel (t_kernels t) = Some q -> q <> 0 -> exists row, nth_error (t_states t) q = Some row /\ kernel_of k kernel row) /\
  (forall row pos, nth_error (t_states t) 0 = Some row -> In pos row -> p_point pos = 0).
Proof. exact @makes_states. Qed.
Print Assumptions C106_states.

(** Lalr has one state for each set of dotted alternatives. *)
Theorem C106_cores : forall (T : Type) (OT : Ord T) (dbg : bool) (start eof : T) (rules : rulemap T) (g : grammar T),
  wf_rules rules -> grammar_new dbg start rules eof = Val g -> forall t q q' row row', makes LALR dbg g t ->
  nth_error (t_states t) q = Some row -> nth_error (t_states t) q' = Some row' -> same_core row row' -> q = q'.
Proof. exact @makes_cores. Qed.
Print Assumptions C106_cores.

Example C106_example : forall k, (wf_rules calc /\ grammar_new true "Z" calc "$" = Val (calc_g true) /\ makes k true (calc_g true) (calc_tab k)) /\
  (map (fun t => (length (t_states t), bm_values (t_kernels t))) [calc_tab SLR; calc_tab LALR] =
    [(9, [0; 5; 2; 6; 8; 3; 1; 7; 4]); (9, [0; 2; 5; 6; 8; 3; 1; 7; 4])] /\ length (t_states (calc_tab k)) = length (t_kernels (calc_tab k))) /\
  exists qs xs, stack_path (calc_tab LALR) (8 :: qs) xs.
Proof. exact (fun k => conj (conj calc_wf (conj (calc_gE true) (calc_makes k))) (conj (calc_kernels k) calc_path)). Qed.
