(** C88 - C92, C117: which grammars get a table without conflicts; the states of the three methods *)
From Coq Require Import List Bool Arith String.
From Verif Require Import BTree Model Strings Grammars Spec SpecP Interface Wrap Check Examples Refute Refute2 LR1Spec HandleF Cores Refute4 StatesSpec Quotient.
Import ListNotations.
Local Open Scope string_scope.
Local Open Scope list_scope.
Local Notation length := List.length.

(** ** C88 *)
(** Clr reports no conflict exactly for the LR(1) grammars. *)
Theorem C88_clr_LR1 : forall (T : Type) (OT : Ord T) (dbg : bool) (start eof : T) (rules : rulemap T) (g : grammar T),
  wf_rules rules -> grammar_new dbg start rules eof = Val g -> forall t, makes CLR dbg g t -> term rules eof ->
  dbg = true \/ single_start rules start ->
  (conflicts (t_actions t) = [] -> LR1 rules start eof) /\
  (dbg = true \/ only_terminals t -> productive rules -> LR1 rules start eof -> conflicts (t_actions t) = []).
Proof. exact @clr_LR1. Qed.
Print Assumptions C88_clr_LR1.

(** calc is LR(1) and has no conflict, hidden is not and has one *)
Example C88_example : wf_rules calc /\ grammar_new true "Z" calc "$" = Val (calc_g true) /\ makes CLR true (calc_g true) (calc_tab CLR) /\ term calc "$" /\
  productive calc /\ LR1 calc "Z" "$".
Proof. exact (conj calc_wf (conj (calc_gE true) (conj (calc_makes CLR) (conj calc_eof (conj calc_productive calc_LR1))))). Qed.
Example C88_example_not : grammar_new true "Z" hidden "$" = Val hidden_g /\ makes CLR true hidden_g (tab CLR true 60 hidden_g) /\
  conflicts (t_actions (tab CLR true 60 hidden_g)) <> [] /\ ~ LR1 hidden "Z" "$".
Proof. exact (conj (hidden_gE true) (conj (hidden_makes CLR) (conj hidden_clr hidden_not_LR1))). Qed.
(** [productive] cannot be dropped: no sentential form of dead rewrites its ambiguous symbol *)
Example C88_productive_needed : wf_rules dead /\ grammar_new true "Z" dead "$" = Val dead_g /\ makes CLR true dead_g (tab CLR true 60 dead_g) /\ term dead "$" /\
  LR1 dead "Z" "$" /\ conflicts (t_actions (tab CLR true 60 dead_g)) <> [].
Proof. exact dead_facts. Qed.

(** ** C89 *)
(** Slr reports no conflict exactly for the SLR(1) grammars. *)
Theorem C89_slr_SLR1 : forall (T : Type) (OT : Ord T) (dbg : bool) (start eof : T) (rules : rulemap T) (g : grammar T),
  wf_rules rules -> grammar_new dbg start rules eof = Val g -> forall t, makes SLR dbg g t -> term rules eof ->
  dbg = true \/ single_start rules start ->
  (conflicts (t_actions t) = [] -> SLR1 rules start eof) /\
  (dbg = true \/ only_terminals t -> productive rules -> SLR1 rules start eof -> conflicts (t_actions t) = []).
Proof. exact @slr_SLR1. Qed.
Print Assumptions C89_slr_SLR1.

Example C89_example : wf_rules calc /\ grammar_new true "Z" calc "$" = Val (calc_g true) /\ makes SLR true (calc_g true) (calc_tab SLR) /\ term calc "$" /\
  productive calc /\ SLR1 calc "Z" "$" /\ ~ SLR1 assign "Z" "$".
Proof. exact (conj calc_wf (conj (calc_gE true) (conj (calc_makes SLR) (conj calc_eof (conj calc_productive (conj calc_SLR1 assign_not_SLR1)))))). Qed.

(** ** C90 *)
(** Full statement: Lalr reports no conflict exactly for the LALR(1) grammars.  It fails both ways.
    Lookaheads passed on to a wrong state make a conflict in an LALR(1) grammar. *)
Theorem C90_lalr_LALR1_refuted : exists (rules : rulemap string) (start eof : string) (g : grammar string) (t : tabler string),
  wf_rules rules /\ grammar_new true start rules eof = Val g /\ makes LALR true g t /\ term rules eof /\ start_fresh rules start /\
  productive rules /\ reachable rules start /\ LALR1 rules start eof /\ conflicts (t_actions t) <> [].
Proof. exact spur_refutes. Qed.
Print Assumptions C90_lalr_LALR1_refuted.

(** Lookaheads not passed on hide a conflict of a grammar that is not LALR(1). *)
Theorem C90_lalr_only_LALR1_refuted : exists (rules : rulemap string) (start eof : string) (g : grammar string) (t : tabler string),
  wf_rules rules /\ grammar_new true start rules eof = Val g /\ makes LALR true g t /\ term rules eof /\ start_fresh rules start /\
  productive rules /\ conflicts (t_actions t) = [] /\ ~ LALR1 rules start eof.
Proof. exact hidden_LALR1_refutes. Qed.
Print Assumptions C90_lalr_only_LALR1_refuted.

(** Missing: the tables whose lookaheads do not reach every state ([carries]), and the converse. *)
Theorem C90_lalr_LALR1_partial : forall (T : Type) (OT : Ord T) (dbg : bool) (start eof : T) (rules : rulemap T) (g : grammar T),
  wf_rules rules -> grammar_new dbg start rules eof = Val g -> forall t, makes LALR dbg g t -> carries t -> term rules eof ->
  dbg = true \/ (single_start rules start /\ only_terminals t) -> productive rules ->
  conflicts (t_actions t) = [] -> LALR1 rules start eof.
Proof. exact @lalr_clean_LALR1. Qed.
Print Assumptions C90_lalr_LALR1_partial.

(** assign is LALR(1) but not SLR(1) *)
Example C90_example : LALR1 assign "Z" "$" /\ ~ SLR1 assign "Z" "$".
Proof. exact (conj assign_LALR1 assign_not_SLR1). Qed.
Example C90_example_hyps : wf_rules assign /\ grammar_new true "Z" assign "$" = Val assign_g /\ (forall k, makes k true assign_g (assign_t k)) /\ term assign "$" /\
  carries (assign_t LALR) /\ conflicts (t_actions (assign_t LALR)) = [] /\ conflicts (t_actions (assign_t SLR)) <> [].
Proof. exact assign_facts. Qed.

(** ** C91 *)
(** Lalr builds Clr's table, entry for entry, exactly if no two states of Clr have the same items
    up to lookaheads. *)
Theorem C91_lalr_is_clr : forall (T : Type) (OT : Ord T) (dbg : bool) (start eof : T) (rules : rulemap T) (g : grammar T),
  wf_rules rules -> grammar_new dbg start rules eof = Val g -> forall t, makes CLR dbg g t ->
  makes LALR dbg g t <->
  (forall q q' row row', nth_error (t_states t) q = Some row -> nth_error (t_states t) q' = Some row' ->
     (forall A pr i, (exists l, In (mkPos A pr i l) row) <-> (exists l, In (mkPos A pr i l) row')) -> q = q').
Proof. exact @lalr_clr_iff. Qed.
Print Assumptions C91_lalr_is_clr.

Example C91_example : wf_rules seqs /\ grammar_new true "Z" seqs "$" = Val seqs_g /\ makes CLR true seqs_g seqs_t /\ length (t_states seqs_t) = 5 /\ makes LALR true seqs_g seqs_t.
Proof. exact seqs_facts. Qed.

(** ** C92 *)
(** If the start symbol occurs on a right-hand side, Slr can have more states than Lalr. *)
Theorem C92_lalr_slr_states_refuted : exists (rules : rulemap string) (start eof : string) (g : grammar string) (tl ts : tabler string),
  wf_rules rules /\ grammar_new true start rules eof = Val g /\ makes LALR true g tl /\ makes SLR true g ts /\ term rules eof /\
  productive rules /\ reachable rules start /\ length (t_states tl) < length (t_states ts).
Proof. exact rec2_states. Qed.
Print Assumptions C92_lalr_slr_states_refuted.

(** Missing: start symbols that occur on a right-hand side. *)
Theorem C92_lalr_slr_states_partial : forall (T : Type) (OT : Ord T) (dbg : bool) (start eof : T) (rules : rulemap T) (g : grammar T),
  wf_rules rules -> grammar_new dbg start rules eof = Val g -> forall tl ts, makes LALR dbg g tl -> makes SLR dbg g ts -> start_fresh rules start ->
  length (t_states tl) = length (t_states ts) /\ exists f,
  (forall q, q < length (t_states tl) -> f q < length (t_states ts)) /\
  (forall q q', q < length (t_states tl) -> q' < length (t_states tl) -> f q = f q' -> q = q') /\
  (forall q row, nth_error (t_states tl) q = Some row -> exists row', nth_error (t_states ts) (f q) = Some row' /\
     forall A pr i, (exists l, In (mkPos A pr i l) row) <-> (exists l, In (mkPos A pr i l) row')) /\
  (forall q X n, q < length (t_states tl) -> n < length (t_states tl) -> moves tl q X n <-> moves ts (f q) X (f n)).
Proof. exact @lalr_slr_states. Qed.
Print Assumptions C92_lalr_slr_states_partial.

Example C92_example : wf_rules calc /\ grammar_new true "Z" calc "$" = Val (calc_g true) /\ (forall k, makes k true (calc_g true) (calc_tab k)) /\ start_fresh calc "Z" /\
  length (t_states (calc_tab SLR)) = 9 /\ length (t_states (calc_tab LALR)) = 9 /\ length (t_states (calc_tab CLR)) = 16.
Proof. exact (conj calc_wf (conj (calc_gE true) (conj calc_makes (conj calc_fresh calc_states)))). Qed.

(** ** C117 *)
(** Lalr's automaton is Slr's, and Clr's, with the states that have the same items made one. *)
Theorem C117_lalr_quotient : forall (T : Type) (OT : Ord T) (dbg : bool) (start eof : T) (rules : rulemap T) (g : grammar T),
  wf_rules rules -> grammar_new dbg start rules eof = Val g -> forall k tk tl, makes k dbg g tk -> makes LALR dbg g tl -> exists h,
  h 0 = 0 /\
  (forall q row, nth_error (t_states tk) q = Some row -> exists row', nth_error (t_states tl) (h q) = Some row' /\ same_core row row') /\
  (forall m, m < length (t_states tl) -> exists q, q < length (t_states tk) /\ h q = m) /\
  (forall q X n, moves tk q X n -> moves tl (h q) X (h n)) /\
  (forall q X m, q < length (t_states tk) -> moves tl (h q) X m -> exists n, moves tk q X n /\ h n = m) /\
  length (t_states tl) <= length (t_states tk) /\
  (length (t_states tl) = length (t_states tk) <->
     forall q q' row row', nth_error (t_states tk) q = Some row -> nth_error (t_states tk) q' = Some row' -> same_core row row' -> q = q').
Proof. exact @lalr_quotient. Qed.
Print Assumptions C117_lalr_quotient.

(** Clr's 16 states for sums become 9; Slr's states for a grammar with its start symbol on a right-hand side become fewer as well *)
Example C117_example : wf_rules calc /\ grammar_new true "Z" calc "$" = Val (calc_g true) /\ (forall k, makes k true (calc_g true) (calc_tab k)) /\
  length (t_states (calc_tab CLR)) = 16 /\ length (t_states (calc_tab LALR)) = 9 /\
  wf_rules rec2 /\ grammar_new true "S" rec2 "$" = Val rec2_g /\ (forall k, makes k true rec2_g (rec2_t k)) /\
  length (t_states (rec2_t SLR)) = 7 /\ length (t_states (rec2_t LALR)) = 6.
Proof.
  exact (conj calc_wf (conj (calc_gE true) (conj calc_makes (conj (proj2 (proj2 calc_states)) (conj (proj1 (proj2 calc_states))
    (conj (grammar_map_wf _) (conj (rec2_gE true) (conj rec2_makes rec2_sizes)))))))).
Qed.
