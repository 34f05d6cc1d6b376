(** C25, C27, C28, C30, C32 and the sharpened C53, C60 *)
From Coq Require Import List Bool Arith String.
From Verif Require Import BTree Model Strings Spec SpecP Interface Wrap Reduce Final DfaParse Check More Export AgreeLalr Examples Refute Refute2.
Import ListNotations.
Local Open Scope string_scope.
Local Open Scope list_scope.

(** ** C25 *)
(** [reduce_equals] returns; it renumbers states by a function [f] that identifies exactly the states
    with equal rows, and parsing with the new table gives the old results with the states inside a
    reported conflict renumbered. *)
Theorem C25_reduce_equals : forall (T : Type) (OT : Ord T) (dbg : bool) (start eof : T) (rules : rulemap T) (g : grammar T),
  wf_rules rules -> grammar_new dbg start rules eof = Val g -> forall k t, makes k dbg g t ->
  exists f t', reduce_equals dbg t = Val t' /\ f 0 = 0 /\ List.length (t_actions t') <= List.length (t_actions t) /\
  (forall q row, nth_error (t_actions t) q = Some row -> nth_error (t_actions t') (f q) = Some (ren_row f row)) /\
  (forall q row, nth_error (t_actions t') q = Some row -> exists q', q' < List.length (t_actions t) /\ f q' = q) /\
  (forall q1 q2, q1 < List.length (t_actions t) -> q2 < List.length (t_actions t) ->
     (f q1 = f q2 <-> nth_error (t_actions t) q1 = nth_error (t_actions t) q2)) /\
  forall M (maps : reductmap T M) input fuel,
    parser_parse fuel t' input maps = match parser_parse fuel t input maps with Val r => Val (ren_res f r) | Panic p => Panic p | Fuel => Fuel end.
Proof. exact @reduce_equals_ok. Qed.
Print Assumptions C25_reduce_equals.

(** a Clr table that shrinks from 13 to 12 rows *)
Example C25_example : wf_rules shrink /\ grammar_new true "Z" shrink "$" = Val shrink_g /\ makes CLR true shrink_g shrink_t /\
  exists t', reduce_equals true shrink_t = Val t' /\ List.length (t_actions shrink_t) = 13 /\ List.length (t_actions t') = 12.
Proof. exact shrink_facts. Qed.

(** ** C27 *)
(** False in release builds, where FIRST sets can keep nonterminals. *)
Theorem C27_slr_clean_refuted : exists (rules : rulemap string) (start eof : string) (g : grammar string) (t : method -> tabler string),
  wf_rules rules /\ grammar_new false start rules eof = Val g /\ (forall k, makes k false g (t k)) /\ term rules eof /\ start_fresh rules start /\
  conflicts (t_actions (t SLR)) = [] /\ conflicts (t_actions (t CLR)) <> [] /\ conflicts (t_actions (t LALR)) <> [].
Proof. exact tri2_refutes. Qed.
Print Assumptions C27_slr_clean_refuted.

(** True when FIRST and FOLLOW hold only terminals.  Missing: the other release builds, refuted above. *)
Theorem C27_slr_clean_partial : forall (T : Type) (OT : Ord T) (dbg : bool) (start eof : T) (rules : rulemap T) (g : grammar T),
  wf_rules rules -> grammar_new dbg start rules eof = Val g -> forall k ts t', term rules eof -> makes SLR dbg g ts -> dbg = true \/ only_terminals ts ->
  conflicts (t_actions ts) = [] -> makes k dbg g t' -> conflicts (t_actions t') = [].
Proof. exact @slr_clean. Qed.
Print Assumptions C27_slr_clean_partial.

(** ** C60: debug builds *)
Theorem C60_slr_clean_debug : forall (T : Type) (OT : Ord T) (start eof : T) (rules : rulemap T) (g : grammar T),
  wf_rules rules -> grammar_new true start rules eof = Val g -> forall k ts t', term rules eof -> makes SLR true g ts ->
  conflicts (t_actions ts) = [] -> makes k true g t' -> conflicts (t_actions t') = [].
Proof. exact (fun T OT start eof rules g W Hg k ts t' He Hs => slr_clean true start eof rules g W Hg k ts t' He Hs (or_introl eq_refl)). Qed.
Print Assumptions C60_slr_clean_debug.

Example C27_C60_example : wf_rules calc /\ grammar_new true "Z" calc "$" = Val (calc_g true) /\ term calc "$" /\
  forall k, makes k true (calc_g true) (calc_tab k) /\ conflicts (t_actions (calc_tab k)) = [].
Proof. exact (conj calc_wf (conj (calc_gE true) (conj calc_eof (fun k => conj (calc_makes k) (calc_clean k))))). Qed.

(** ** C28 *)
(** False: the Lalr construction loses lookaheads, and with them conflicts. *)
Theorem C28_lalr_clean_refuted : exists (rules : rulemap string) (start eof : string) (g : grammar string) (t : method -> tabler string),
  wf_rules rules /\ grammar_new true start rules eof = Val g /\ (forall k, makes k true g (t k)) /\ term rules eof /\ start_fresh rules start /\
  conflicts (t_actions (t LALR)) = [] /\ conflicts (t_actions (t CLR)) <> [].
Proof. exact hidden_refutes. Qed.
Print Assumptions C28_lalr_clean_refuted.

(** True when every transition of the Lalr table carries its lookaheads and FIRST holds only terminals.
    Missing: the other tables, refuted above and in C27. *)
Theorem C28_lalr_clean_partial : forall (T : Type) (OT : Ord T) (dbg : bool) (start eof : T) (rules : rulemap T) (g : grammar T),
  wf_rules rules -> grammar_new dbg start rules eof = Val g -> forall t tc, makes LALR dbg g t -> carries t -> makes CLR dbg g tc -> term rules eof ->
  dbg = true \/ only_terminals tc -> conflicts (t_actions t) = [] -> conflicts (t_actions tc) = [].
Proof. exact (fun T OT dbg start eof rules g W Hg t tc Hm Hk => lalr_clean_clr dbg start eof rules g W Hg LALR t tc Hm (or_intror Hk)). Qed.
Print Assumptions C28_lalr_clean_partial.

(** a grammar whose Lalr table has no conflicts although its Slr table has *)
Example C28_example : wf_rules assign /\ grammar_new true "Z" assign "$" = Val assign_g /\ (forall k, makes k true assign_g (assign_t k)) /\ term assign "$" /\
  carries (assign_t LALR) /\ conflicts (t_actions (assign_t LALR)) = [] /\ conflicts (t_actions (assign_t SLR)) <> [].
Proof. exact assign_facts. Qed.

(** ** C30 *)
(** [Dfa::parse] panics on an input that [Parser::parse] accepts: [reset] empties the stack of states
    that [Dfa::new] starts with 0. *)
Theorem C30_dfa_parse_refuted :
  exists (rules : rulemap string) (start eof : string) (g : grammar string) (maps : reductmap string nat) (input : list (token string nat)) (m : nat),
  wf_rules rules /\ grammar_new true start rules eof = Val g /\ term rules eof /\ start_fresh rules start /\ covers rules maps /\ Forall (term rules) (map tk_ty input) /\
  forall k, exists t d fuel p, makes k true g t /\ conflicts (t_actions t) = [] /\ parser_dfa t [] maps = Val d /\ parses t input maps (POk m) /\ dfa_parse fuel d input = Panic p.
Proof. exact calc_dfa_refutes. Qed.
Print Assumptions C30_dfa_parse_refuted.

(** They agree as long as the run never reduces its whole stack at once.  Missing: the other runs, which
    panic (C53). *)
Theorem C30_dfa_parse_partial : forall (T : Type) (OT : Ord T) (dbg : bool) (start eof : T) (rules : rulemap T) (g : grammar T),
  wf_rules rules -> grammar_new dbg start rules eof = Val g -> forall M (maps : reductmap T M) k t, makes k dbg g t -> term rules eof ->
  forall buffer d0, parser_dfa t buffer maps = Val d0 -> forall input, Forall (term rules) (map tk_ty input) ->
  forall r, (forall d, reaches t input maps d -> ~ empties t d) -> parses t input maps r ->
  exists N d', forall fuel, N <= fuel -> dfa_parse fuel d0 input = Val (d', r).
Proof. exact @dfa_parse_same. Qed.
Print Assumptions C30_dfa_parse_partial.

(** ** C53: [Dfa::parse] panics exactly when the run reduces its whole stack at once; in particular on every
    accepted input when the start production begins with a nonterminal *)
Theorem C53_dfa_parse_panics : forall (T : Type) (OT : Ord T) (dbg : bool) (start eof : T) (rules : rulemap T) (g : grammar T),
  wf_rules rules -> grammar_new dbg start rules eof = Val g -> forall M (maps : reductmap T M) k t, makes k dbg g t -> term rules eof -> covers rules maps ->
  forall buffer d0, parser_dfa t buffer maps = Val d0 -> forall input, Forall (term rules) (map tk_ty input) ->
  (forall d, reaches t input maps d -> empties t d -> exists N, forall fuel, N <= fuel -> dfa_parse fuel d0 input = Panic P_underflow) /\
  (forall m B rhs, start_fresh rules start -> prod_at rules start 0 (B :: rhs) -> nonterm rules B -> parses t input maps (POk m) ->
     exists N, forall fuel, N <= fuel -> dfa_parse fuel d0 input = Panic P_underflow) /\
  (forall r, (forall d, reaches t input maps d -> ~ empties t d) -> parses t input maps r ->
     exists N d', forall fuel, N <= fuel -> dfa_parse fuel d0 input = Val (d', r)).
Proof.
  exact (fun T OT dbg start eof rules g W Hg M maps k t Hm He Hc buffer d0 Hd input Hi => conj
    (dfa_parse_panics dbg start eof rules g W Hg maps k t Hm He Hc buffer d0 Hd input Hi) (conj
    (dfa_parse_boom dbg start eof rules g W Hg maps k t Hm He Hc buffer d0 Hd input Hi)
    (dfa_parse_same dbg start eof rules g W Hg maps k t Hm He buffer d0 Hd input Hi))).
Qed.
Print Assumptions C53_dfa_parse_panics.

(** ( ) fails in both before any reduction *)
Example C30_C53_example : wf_rules calc /\ grammar_new true "Z" calc "$" = Val (calc_g true) /\ term calc "$" /\ covers calc calc_maps /\ start_fresh calc "Z" /\
  forall k, makes k true (calc_g true) (calc_tab k) /\ parser_dfa (calc_tab k) [] calc_maps = Val (calc_d0 k) /\
  Forall (term calc) (map tk_ty [mkTok 0 "("; mkTok 0 ")"]) /\
  (forall d, reaches (calc_tab k) [mkTok 0 "("; mkTok 0 ")"] calc_maps d -> ~ empties (calc_tab k) d) /\
  exists r, parses (calc_tab k) [mkTok 0 "("; mkTok 0 ")"] calc_maps r.
Proof.
  exact (conj calc_wf (conj (calc_gE true) (conj calc_eof (conj calc_covers (conj calc_fresh (fun k => conj (calc_makes k) (conj (calc_d0E k) (calc_dfa_same k)))))))).
Qed.

(** ** C32 *)
(** False for a recursive start symbol. *)
Theorem C32_agree_refuted : exists (rules : rulemap string) (start eof : string) (g : grammar string) (t : method -> tabler string) (input : list (token string unit)),
  wf_rules rules /\ grammar_new true start rules eof = Val g /\ (forall k, makes k true g (t k)) /\ term rules eof /\
  conflicts (t_actions (t SLR)) = [] /\ validates (t SLR) input true /\ validates (t CLR) input false.
Proof. exact rec2_disagree. Qed.
Print Assumptions C32_agree_refuted.

(** True, with equal values, when the start symbol occurs in no right-hand side and FIRST and FOLLOW hold only
    terminals.  Missing: recursive start symbols, refuted above, and the other release builds. *)
Theorem C32_agree_partial : forall (T : Type) (OT : Ord T) (dbg : bool) (start eof : T) (rules : rulemap T) (g : grammar T),
  wf_rules rules -> grammar_new dbg start rules eof = Val g -> forall ts tc, makes SLR dbg g ts -> makes CLR dbg g tc -> term rules eof -> start_fresh rules start ->
  dbg = true \/ only_terminals ts -> conflicts (t_actions ts) = [] ->
  (forall M (maps : reductmap T M) input m, parses ts input maps (POk m) <-> parses tc input maps (POk m)) /\
  (forall input, validates ts input true <-> validates tc input true).
Proof. exact @agree_slr. Qed.
Print Assumptions C32_agree_partial.

Example C32_example : wf_rules calc /\ grammar_new true "Z" calc "$" = Val (calc_g true) /\ term calc "$" /\ start_fresh calc "Z" /\
  makes SLR true (calc_g true) (calc_tab SLR) /\ makes CLR true (calc_g true) (calc_tab CLR) /\ conflicts (t_actions (calc_tab SLR)) = [] /\
  parses (calc_tab SLR) calc_input calc_maps (POk 6).
Proof.
  exact (conj calc_wf (conj (calc_gE true) (conj calc_eof (conj calc_fresh (conj (calc_makes SLR) (conj (calc_makes CLR) (conj (calc_clean SLR) (calc_parses SLR)))))))).
Qed.
