(** C132: when Lalr's parser accepts every sentence *)
From Coq Require Import List Bool Arith String.
From Verif Require Import BTree Model Strings Spec SpecP Interface Check Examples Refute Refute2 LR1Spec ValidSpec ValidEx LostSpec Lost LostEx.
Import ListNotations.
Local Open Scope string_scope.
Local Open Scope list_scope.

(** ** C132 *)
(** The completed items of Lalr's table have the lookaheads the LALR(1) construction hands to them exactly if, after every
    sequence of symbols, they have those that can come next there. *)
Theorem C132_lookaheads : forall (T : Type) (OT : Ord T) (dbg : bool) (start eof : T) (rules : rulemap T) (g : grammar T),
  wf_rules rules -> grammar_new dbg start rules eof = Val g ->
  forall t, makes LALR dbg g t -> term rules eof -> dbg = true \/ single_start rules start -> dbg = true \/ only_terminals t -> productive rules ->
  (keeps rules start eof t <->
   forall q qs xs, stack_path t (q :: qs) xs -> forall A i u x, valid_look rules start eof (rev xs) A i u [] x -> item_look t q A i u [] x).
Proof. exact @lost_looks. Qed.
Print Assumptions C132_lookaheads.

(** If Lalr reports no conflict, then this is so exactly if the grammar is LR(1) and the parser accepts all its sentences. *)
Theorem C132_accepts : forall (T : Type) (OT : Ord T) (dbg : bool) (start eof : T) (rules : rulemap T) (g : grammar T),
  wf_rules rules -> grammar_new dbg start rules eof = Val g ->
  forall t, makes LALR dbg g t -> term rules eof -> start_fresh rules start -> dbg = true \/ single_start rules start -> dbg = true \/ only_terminals t -> productive rules ->
  conflicts (t_actions t) = [] ->
  (keeps rules start eof t <-> LR1 rules start eof /\ forall input, sentence rules start (map tk_ty input) -> validates t input true).
Proof. exact @lost_exact. Qed.
Print Assumptions C132_accepts.

(** Then Clr reports none either, and the two parsers accept the same inputs with the same values. *)
Theorem C132_values : forall (T : Type) (OT : Ord T) (dbg : bool) (start eof : T) (rules : rulemap T) (g : grammar T),
  wf_rules rules -> grammar_new dbg start rules eof = Val g ->
  forall t, makes LALR dbg g t -> term rules eof -> start_fresh rules start -> dbg = true \/ single_start rules start -> dbg = true \/ only_terminals t -> productive rules ->
  conflicts (t_actions t) = [] -> keeps rules start eof t ->
  forall tc, makes CLR dbg g tc -> conflicts (t_actions tc) = [] /\
  forall M (maps : reductmap T M) input, covers rules maps -> Forall (term rules) (map tk_ty input) -> forall m, parses t input maps (POk m) <-> parses tc input maps (POk m).
Proof. exact @lost_same. Qed.
Print Assumptions C132_values.

(** S -> L = R | R; L -> * R | i; R -> L keeps them, and so its sentences are accepted *)
Example C132_example : wf_rules assign /\ grammar_new true "Z" assign "$" = Val assign_g /\ (forall k, makes k true assign_g (assign_t k)) /\ term assign "$" /\
  start_fresh assign "Z" /\ productive assign /\ conflicts (t_actions (assign_t LALR)) = [] /\ keeps assign "Z" "$" (assign_t LALR) /\
  sentence assign "Z" ["*"; "i"; "="; "i"] /\ validates (assign_t LALR) (to_tokens ["*"; "i"; "="; "i"]) true.
Proof.
  destruct assign_facts as (H1 & H2 & H3 & H4 & _).
  exact (conj H1 (conj H2 (conj H3 (conj H4 (conj assign_fresh (conj assign_productive (conj assign_clean (conj assign_keeps assign_pointer)))))))).
Qed.

(** S -> A x | c A y; A -> a B; B -> b is LR(1), and Lalr reports no conflict; but its table has lost a lookahead, and with it a
    sentence. *)
Example C132_lost : wf_rules lost /\ grammar_new true "Z" lost "$" = Val lost_g /\ makes LALR true lost_g (lost_t LALR) /\ term lost "$" /\
  start_fresh lost "Z" /\ productive lost /\ conflicts (t_actions (lost_t LALR)) = [] /\ LR1 lost "Z" "$" /\ ~ keeps lost "Z" "$" (lost_t LALR) /\
  sentence lost "Z" ["c"; "a"; "b"; "y"] /\ validates (lost_t LALR) (to_tokens ["c"; "a"; "b"; "y"]) false.
Proof.
  exact (conj lost_wf (conj (lost_gE true) (conj (lost_makes LALR) (conj lost_eof (conj lost_fresh (conj lost_productive (conj (lost_clean LALR)
    (conj lost_LR1 (conj lost_not_kept (conj lost_sentence lost_rejects)))))))))).
Qed.
