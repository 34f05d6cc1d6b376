(** C131: a renamed grammar's parser gives the renamed answer to every input *)
From Coq Require Import List Bool Arith String.
From Verif Require Import BTree Model Strings Grammars Spec SpecP Interface Wrap Check Examples Refute LR1Spec ValidSpec RenameSpec Refute2 Refute4 Refute5 ValidEx RenameRun RenameRunEx.
Import ListNotations.
Local Open Scope string_scope.
Local Open Scope list_scope.
Local Notation length := List.length.

(** Slr, Clr, and Lalr where its lookaheads are those of LALR(1) (C123): values, errors with what was expected instead,
    and conflicts. The tables may have conflicts. [renamed_result] is in RenameSpec.v. *)
Theorem C131_answers : forall (T1 T2 : Type) (O1 : Ord T1) (O2 : Ord T2) (f : T1 -> T2) (m : T1 -> nat -> nat) (rules1 : rulemap T1) (rules2 : rulemap T2),
  renames f m rules1 rules2 -> forall (start eof : T1) (dbg1 dbg2 : bool) (g1 : grammar T1) (g2 : grammar T2) (k : method) (t1 : tabler T1) (t2 : tabler T2),
  wf_rules rules1 -> wf_rules rules2 -> grammar_new dbg1 start rules1 eof = Val g1 -> grammar_new dbg2 (f start) rules2 (f eof) = Val g2 ->
  makes k dbg1 g1 t1 -> makes k dbg2 g2 t2 ->
  k <> LALR \/ (hands_on t1 /\ grounded rules1 start eof t1) -> k <> LALR \/ (hands_on t2 /\ grounded rules2 (f start) (f eof) t2) ->
  term rules1 eof -> dbg1 = true \/ single_start rules1 start -> dbg2 = true \/ single_start rules2 (f start) ->
  dbg1 = true \/ only_terminals t1 -> dbg2 = true \/ only_terminals t2 -> productive rules1 ->
  forall (M : Type) (maps1 : reductmap T1 M) (maps2 : reductmap T2 M), same_reductors f m rules1 maps1 maps2 ->
  forall input, Forall (term rules1) (map tk_ty input) ->
  (forall r, parses t1 input maps1 r -> exists r', parses t2 (map (retok f) input) maps2 r' /\ renamed_result f r r') /\
  (forall r', parses t2 (map (retok f) input) maps2 r' -> exists r, parses t1 input maps1 r /\ renamed_result f r r').
Proof. exact @renamed_answers. Qed.
Print Assumptions C131_answers.

(** and whether the table has conflicts does not depend on the names or on the order of the alternatives *)
Theorem C131_conflicts : forall (T1 T2 : Type) (O1 : Ord T1) (O2 : Ord T2) (f : T1 -> T2) (m : T1 -> nat -> nat) (rules1 : rulemap T1) (rules2 : rulemap T2),
  renames f m rules1 rules2 -> forall (start eof : T1) (dbg1 dbg2 : bool) (g1 : grammar T1) (g2 : grammar T2) (k : method) (t1 : tabler T1) (t2 : tabler T2),
  wf_rules rules1 -> wf_rules rules2 -> grammar_new dbg1 start rules1 eof = Val g1 -> grammar_new dbg2 (f start) rules2 (f eof) = Val g2 ->
  makes k dbg1 g1 t1 -> makes k dbg2 g2 t2 ->
  k <> LALR \/ (hands_on t1 /\ grounded rules1 start eof t1) -> k <> LALR \/ (hands_on t2 /\ grounded rules2 (f start) (f eof) t2) ->
  term rules1 eof -> dbg1 = true \/ single_start rules1 start -> dbg2 = true \/ single_start rules2 (f start) ->
  dbg1 = true \/ only_terminals t1 -> dbg2 = true \/ only_terminals t2 -> productive rules1 ->
  (conflicts (t_actions t1) = [] <-> conflicts (t_actions t2) = []).
Proof. exact @renamed_conflicts. Qed.
Print Assumptions C131_conflicts.

(** So is the notion of LALR(1) itself; for LR(1) and SLR(1) see C93. *)
Theorem C131_LALR1 : forall (T1 T2 : Type) (O1 : Ord T1) (O2 : Ord T2) (f : T1 -> T2) (m : T1 -> nat -> nat) (rules1 : rulemap T1) (rules2 : rulemap T2),
  renames f m rules1 rules2 -> forall start eof : T1, LALR1 rules1 start eof <-> LALR1 rules2 (f start) (f eof).
Proof. exact @LALR1_f. Qed.
Print Assumptions C131_LALR1.

(** the assignments in other letters and with the alternatives of S exchanged: Slr stops in a conflict for both, Lalr accepts
    i = i for both and expects = or the end instead of a second i *)
Example C131_example : renames (swaps assign_names) assign_alts assign assign' /\ same_reductors (swaps assign_names) assign_alts assign (empty_map assign_g) (empty_map assign'_g) /\
  (wf_rules assign' /\ grammar_new true "Z" assign' "$" = Val assign'_g /\ (forall k, makes k true assign'_g (assign'_t k))) /\
  (hands_on (assign_t LALR) /\ grounded assign "Z" "$" (assign_t LALR)) /\ (hands_on (assign'_t LALR) /\ grounded assign' "Z" "$" (assign'_t LALR)) /\
  productive assign /\ Forall (term assign) (map tk_ty assign_input).
Proof. exact (conj assign_renames (conj assign_same (conj assign'_facts (conj (proj1 assign_exact) (conj (proj2 assign_exact) (conj assign_productive assign_terms)))))). Qed.
Example C131_example_hyps : wf_rules assign /\ grammar_new true "Z" assign "$" = Val assign_g /\ (forall k, makes k true assign_g (assign_t k)) /\ term assign "$".
Proof. exact (let '(conj a (conj b (conj c (conj d _)))) := assign_facts in conj a (conj b (conj c d))). Qed.
Example C131_example_answers :
  parses (assign_t SLR) assign_input (empty_map assign_g) (PErr (ConflictErr (Reduce "R" (["L"], 0)) (Shift 8))) /\
  (exists a b, parses (assign'_t SLR) (map (retok (swaps assign_names)) assign_input) (empty_map assign'_g) (PErr (ConflictErr a b))) /\
  parses (assign_t LALR) assign_input (empty_map assign_g) (POk tt) /\
  parses (assign'_t LALR) (map (retok (swaps assign_names)) assign_input) (empty_map assign'_g) (POk tt) /\
  parses (assign_t LALR) (to_tokens ["i"; "i"]) (empty_map assign_g) (PErr (UnexpectedToken "i" ["$"; "="])) /\
  parses (assign'_t LALR) (map (retok (swaps assign_names)) (to_tokens ["i"; "i"])) (empty_map assign'_g) (PErr (UnexpectedToken "j" ["$"; "~"])).
Proof. exact assign_answers. Qed.
