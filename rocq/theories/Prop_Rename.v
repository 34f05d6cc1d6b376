(** C93, C94: the names of the symbols and the order of the alternatives do not matter *)
From Coq Require Import List Bool Arith String.
From Verif Require Import BTree Model Strings Grammars Spec SpecP Interface Wrap Check Examples Refute LR1Spec HandleF RenameSpec Rename Refute4 Refute5.
Import ListNotations.
Local Open Scope string_scope.
Local Open Scope list_scope.
Local Notation length := List.length.

(** ** C93 *)
(** Slr and Clr. [renames] and [same_reductors] are in RenameSpec.v. *)
Theorem C93_renaming : forall (T1 T2 : Type) (O1 : Ord T1) (O2 : Ord T2) (f : T1 -> T2) (m : T1 -> nat -> nat) (rules1 : rulemap T1) (rules2 : rulemap T2),
  renames f m rules1 rules2 -> forall (start eof : T1) (g1 : grammar T1) (g2 : grammar T2), wf_rules rules1 -> wf_rules rules2 ->
  grammar_new true start rules1 eof = Val g1 -> grammar_new true (f start) rules2 (f eof) = Val g2 ->
  forall k t1 t2, makes k true g1 t1 -> makes k true g2 t2 -> k <> LALR -> term rules1 eof -> productive rules1 ->
  (conflicts (t_actions t1) = [] <-> conflicts (t_actions t2) = []) /\
  (start_fresh rules1 start -> conflicts (t_actions t1) = [] ->
    (forall input, validates t1 input true <-> validates t2 (map (retok f) input) true) /\
    (forall M (maps1 : reductmap T1 M) (maps2 : reductmap T2 M) input v, same_reductors f m rules1 maps1 maps2 ->
       (parses t1 input maps1 (POk v) <-> parses t2 (map (retok f) input) maps2 (POk v)))).
Proof. exact @renamed. Qed.
Print Assumptions C93_renaming.

(** calc in other letters with the two alternatives of E exchanged; 1 + ( 2 + 3 ) is still worth 6 *)
Example C93_example : renames (swaps calc_names) calc_alts calc calc' /\ same_reductors (swaps calc_names) calc_alts calc calc_maps calc'_maps /\
  wf_rules calc' /\ grammar_new true "A" calc' "$" = Val calc'_g /\ (forall k, makes k true calc'_g (calc'_tab k)) /\
  parses (calc'_tab SLR) (map (retok (swaps calc_names)) calc_input) calc'_maps (POk 6).
Proof. exact (conj calc_renames (conj calc_same calc'_facts)). Qed.
Example C93_example_hyps : wf_rules calc /\ grammar_new true "Z" calc "$" = Val (calc_g true) /\ (forall k, makes k true (calc_g true) (calc_tab k)) /\ term calc "$" /\
  productive calc /\ start_fresh calc "Z" /\ (forall k, conflicts (t_actions (calc_tab k)) = []).
Proof. exact (conj calc_wf (conj (calc_gE true) (conj calc_makes (conj calc_eof (conj calc_productive (conj calc_fresh calc_clean)))))). Qed.

(** ** C94 *)
(** Lalr: two terminals exchange their names and a conflict appears. *)
Theorem C94_lalr_conflicts_refuted : exists (f : string -> string) (rules rules' : rulemap string) (start eof : string) (g g' : grammar string) (t t' : tabler string),
  renames f (fun _ i => i) rules rules' /\ wf_rules rules /\ wf_rules rules' /\
  grammar_new true start rules eof = Val g /\ grammar_new true (f start) rules' (f eof) = Val g' /\ term rules eof /\ productive rules /\ start_fresh rules start /\
  makes LALR true g t /\ makes LALR true g' t' /\ conflicts (t_actions t) = [] /\ conflicts (t_actions t') <> [].
Proof. exact lalr_conflict_names. Qed.
Print Assumptions C94_lalr_conflicts_refuted.

(** Lalr, no conflicts: two terminals exchange their names and a rejected input is accepted. *)
Theorem C94_lalr_language_refuted : exists (f : string -> string) (rules rules' : rulemap string) (start eof : string) (g g' : grammar string) (t t' : tabler string) (w : list (token string unit)),
  renames f (fun _ i => i) rules rules' /\ wf_rules rules /\ wf_rules rules' /\
  grammar_new true start rules eof = Val g /\ grammar_new true (f start) rules' (f eof) = Val g' /\ term rules eof /\ productive rules /\ start_fresh rules start /\
  makes LALR true g t /\ makes LALR true g' t' /\ conflicts (t_actions t) = [] /\ conflicts (t_actions t') = [] /\
  validates t w false /\ validates t' (map (retok f) w) true.
Proof. exact lalr_language_names. Qed.
Print Assumptions C94_lalr_language_refuted.

(** Missing: conflicts of grammars that are not SLR(1), and tables whose lookaheads do not reach
    every state ([carries]). *)
Theorem C94_lalr_renaming_partial : forall (T1 T2 : Type) (O1 : Ord T1) (O2 : Ord T2) (f : T1 -> T2) (m : T1 -> nat -> nat) (rules1 : rulemap T1) (rules2 : rulemap T2),
  renames f m rules1 rules2 -> forall (start eof : T1) (g1 : grammar T1) (g2 : grammar T2), wf_rules rules1 -> wf_rules rules2 ->
  grammar_new true start rules1 eof = Val g1 -> grammar_new true (f start) rules2 (f eof) = Val g2 ->
  forall t1 t2, makes LALR true g1 t1 -> makes LALR true g2 t2 -> term rules1 eof -> productive rules1 ->
  (SLR1 rules1 start eof -> conflicts (t_actions t1) = [] /\ conflicts (t_actions t2) = []) /\
  (start_fresh rules1 start -> conflicts (t_actions t1) = [] -> conflicts (t_actions t2) = [] -> carries t1 -> carries t2 ->
    (forall input, validates t1 input true <-> validates t2 (map (retok f) input) true) /\
    (forall M (maps1 : reductmap T1 M) (maps2 : reductmap T2 M) input v, same_reductors f m rules1 maps1 maps2 ->
       (parses t1 input maps1 (POk v) <-> parses t2 (map (retok f) input) maps2 (POk v)))).
Proof. exact @renamed_lalr. Qed.
Print Assumptions C94_lalr_renaming_partial.

Example C94_example : SLR1 calc "Z" "$" /\ carries (calc_tab LALR) /\ carries (calc'_tab LALR).
Proof. exact (conj calc_SLR1 (conj calc_carries calc'_carries)). Qed.
