(** C123: when Lalr's lookaheads are the LALR(1) ones *)
From Coq Require Import List Bool Arith String.
From Verif Require Import BTree Model Strings Grammars Wop Spec SpecP Interface Check Examples Refute Refute2 LR1Spec ValidSpec Pass Textbook ValidEx PassEx.
Import ListNotations.
Local Open Scope string_scope.
Local Open Scope list_scope.

(** ** C123 *)
(** In every table Lalr builds, the lookaheads that can be handed on from item to item are the LALR(1) ones, and
    those the items have are exactly these if and only if no transition loses one and every one has been
    handed out. *)
Theorem C123_lookaheads : forall (T : Type) (OT : Ord T) (dbg : bool) (start eof : T) (rules : rulemap T) (g : grammar T),
  wf_rules rules -> grammar_new dbg start rules eof = Val g ->
  forall t, makes LALR dbg g t -> term rules eof -> dbg = true \/ single_start rules start -> dbg = true \/ only_terminals t -> productive rules ->
  (forall q qs xs, stack_path t (q :: qs) xs -> forall A i u v x, passed rules start eof t q A i u v x <-> lalr1_look rules start eof (rev xs) A i u v x) /\
  (hands_on t /\ grounded rules start eof t <->
   forall q qs xs, stack_path t (q :: qs) xs -> forall A i u v x, item_look t q A i u v x <-> lalr1_look rules start eof (rev xs) A i u v x).
Proof. exact @lalr_exact. Qed.
Print Assumptions C123_lookaheads.

(** Then Lalr reports no conflict exactly for the LALR(1) grammars. *)
Theorem C123_LALR1 : forall (T : Type) (OT : Ord T) (dbg : bool) (start eof : T) (rules : rulemap T) (g : grammar T),
  wf_rules rules -> grammar_new dbg start rules eof = Val g ->
  forall t, makes LALR dbg g t -> hands_on t /\ grounded rules start eof t -> term rules eof -> dbg = true \/ single_start rules start -> dbg = true \/ only_terminals t -> productive rules ->
  (conflicts (t_actions t) = [] <-> LALR1 rules start eof).
Proof. exact @lalr_iff_LALR1. Qed.
Print Assumptions C123_LALR1.

(** It is so for every grammar in the repository. *)
Theorem C123_bundled : exact_looks "S" "$" (grammar_map dragon_book_rules) /\ exact_looks "Start" "$" (grammar_map serokell_rules) /\
  exact_looks "S" "$" (grammar_map ucalgary_uni_oth_lr1_rules) /\ exact_looks "S" "$" (grammar_map wikipedia_rules) /\ exact_looks "S'" "$" (grammar_map puncs_rules) /\
  exact_looks "S" "$" (grammar_map scanner_rules) /\ exact_looks EntryPoint Eof (grammar_map wop_rules).
Proof. exact repo_looks. Qed.
Print Assumptions C123_bundled.

(** S -> L = R | R; L -> * R | i; R -> L: after L, R -> L . has the lookahead $ and not = *)
Example C123_example : wf_rules assign /\ grammar_new true "Z" assign "$" = Val assign_g /\ makes LALR true assign_g (assign_t LALR) /\ term assign "$" /\ productive assign /\
  hands_on (assign_t LALR) /\ grounded assign "Z" "$" (assign_t LALR) /\ item_look (assign_t LALR) 2 "R" 0 ["L"] [] "$" /\ ~ item_look (assign_t LALR) 2 "R" 0 ["L"] [] "=".
Proof.
  destruct assign_facts as (H1 & H2 & H3 & H4 & _).
  exact (conj H1 (conj H2 (conj (H3 LALR) (conj H4 (conj assign_productive assign_looks))))).
Qed.

(** Neither condition can be left out: a lost lookahead hides a conflict, one that has strayed makes up another. *)
Example C123_needed : exists (rules rules' : rulemap string) (start eof : string) (g g' : grammar string) (t t' : tabler string),
  (wf_rules rules /\ grammar_new true start rules eof = Val g /\ makes LALR true g t /\ term rules eof /\ productive rules /\
   grounded rules start eof t /\ ~ hands_on t /\ conflicts (t_actions t) = [] /\ ~ LALR1 rules start eof) /\
  (wf_rules rules' /\ grammar_new true start rules' eof = Val g' /\ makes LALR true g' t' /\ term rules' eof /\ productive rules' /\
   ~ (hands_on t' /\ grounded rules' start eof t') /\ conflicts (t_actions t') <> [] /\ LALR1 rules' start eof).
Proof. exact inexact. Qed.
