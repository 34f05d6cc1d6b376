(** C19 - C21, C23, C37, C39 and the sharpened C50, C51, C59 *)
From Coq Require Import List Bool Arith String.
From Verif Require Import BTree Model Strings Spec SpecP Interface Wrap Final Check More Export Acyclic Examples Refute Refute2.
Import ListNotations.
Local Open Scope string_scope.
Local Open Scope list_scope.

(** ** C19 *)
Theorem C19_clr_terminates : forall (T : Type) (OT : Ord T) (dbg : bool) (start eof : T) (rules : rulemap T) (g : grammar T),
  wf_rules rules -> grammar_new dbg start rules eof = Val g -> forall t, makes CLR dbg g t -> term rules eof ->
  (forall M (maps : reductmap T M) input, covers rules maps -> Forall (term rules) (map tk_ty input) -> exists r, parses t input maps r) /\
  (forall input : list (token T unit), Forall (term rules) (map tk_ty input) -> exists b, validates t input b).
Proof. exact @clr_total. Qed.
Print Assumptions C19_clr_terminates.

(** a cyclic, ambiguous grammar whose Slr parser loops on the same input (see C20) *)
Example C19_example : wf_rules loop2 /\ grammar_new true "Z" loop2 "$" = Val loop2_g /\ makes CLR true loop2_g (tab CLR true 60 loop2_g) /\ term loop2 "$" /\
  covers loop2 (empty_map loop2_g) /\ Forall (term loop2) (map tk_ty (to_tokens ["c"; "y"])) /\ conflicts (t_actions (tab CLR true 60 loop2_g)) <> [] /\
  unit_chain loop2 "C" "C" /\ parses (tab CLR true 60 loop2_g) (to_tokens ["c"; "y"]) (empty_map loop2_g) (PErr (UnexpectedToken "y" ["x"])).
Proof. exact loop2_clr. Qed.

(** ** C20 *)
(** An Slr parser loops forever on  c y:  once for a grammar with useless rules and no conflicts,
    once for a grammar without useless rules. *)
Theorem C20_slr_terminates_refuted :
  (exists (rules : rulemap string) (start eof : string) (g : grammar string) (t : tabler string) (maps : reductmap string unit) (input : list (token string unit)),
   wf_rules rules /\ grammar_new true start rules eof = Val g /\ makes SLR true g t /\ term rules eof /\ start_fresh rules start /\ conflicts (t_actions t) = [] /\
   covers rules maps /\ Forall (term rules) (map tk_ty input) /\ forall fuel, parser_parse fuel t input maps = Fuel) /\
  (exists (rules : rulemap string) (start eof : string) (g : grammar string) (t : tabler string) (maps : reductmap string unit) (input : list (token string unit)),
   wf_rules rules /\ grammar_new true start rules eof = Val g /\ makes SLR true g t /\ term rules eof /\ start_fresh rules start /\ productive rules /\ reachable rules start /\
   covers rules maps /\ Forall (term rules) (map tk_ty input) /\ forall fuel, parser_parse fuel t input maps = Fuel).
Proof. exact (conj loop_refutes loop2_refutes). Qed.
Print Assumptions C20_slr_terminates_refuted.

(** Slr parsers terminate when no nonterminal derives itself through unit productions, and when the
    table has no conflicts and the grammar no useless rules.  Missing: the grammars above. *)
Theorem C20_slr_terminates_partial : forall (T : Type) (OT : Ord T) (dbg : bool) (start eof : T) (rules : rulemap T) (g : grammar T),
  wf_rules rules -> grammar_new dbg start rules eof = Val g -> forall t, makes SLR dbg g t -> term rules eof ->
  no_unit_cycle rules \/
    (start_fresh rules start /\ (dbg = true \/ single_start rules start) /\ productive rules /\ reachable rules start /\ conflicts (t_actions t) = []) ->
  (forall M (maps : reductmap T M) input, covers rules maps -> Forall (term rules) (map tk_ty input) -> exists r, parses t input maps r) /\
  (forall input : list (token T unit), Forall (term rules) (map tk_ty input) -> exists b, validates t input b).
Proof.
  exact (fun T OT dbg start eof rules g W Hg t Hm He H => match H with
    | or_introl Hu => acyclic_total dbg start eof rules g W Hg SLR t Hm He Hu
    | or_intror (conj Hf (conj Hs (conj Hp (conj Hr Hc)))) => clean_total dbg start eof rules g W Hg SLR t Hm (or_introl slr_lalr) He Hf Hs Hp Hr Hc end).
Qed.
Print Assumptions C20_slr_terminates_partial.

(** ** C50: termination of all three methods without unit cycles *)
Theorem C50_terminates : forall (T : Type) (OT : Ord T) (dbg : bool) (start eof : T) (rules : rulemap T) (g : grammar T),
  wf_rules rules -> grammar_new dbg start rules eof = Val g -> forall k t, makes k dbg g t -> term rules eof -> no_unit_cycle rules ->
  (forall M (maps : reductmap T M) input, covers rules maps -> Forall (term rules) (map tk_ty input) -> exists r, parses t input maps r) /\
  (forall input : list (token T unit), Forall (term rules) (map tk_ty input) -> exists b, validates t input b).
Proof. exact @acyclic_total. Qed.
Print Assumptions C50_terminates.

(** ** C59: a conflict-free table of a grammar without useless rules has no unit cycle *)
Theorem C59_clean_terminates : forall (T : Type) (OT : Ord T) (dbg : bool) (start eof : T) (rules : rulemap T) (g : grammar T),
  wf_rules rules -> grammar_new dbg start rules eof = Val g -> forall k t, makes k dbg g t -> k <> LALR \/ carries t -> term rules eof -> start_fresh rules start ->
  dbg = true \/ single_start rules start -> productive rules -> reachable rules start -> conflicts (t_actions t) = [] ->
  no_unit_cycle rules /\
  (forall M (maps : reductmap T M) input, covers rules maps -> Forall (term rules) (map tk_ty input) -> exists r, parses t input maps r) /\
  (forall input : list (token T unit), Forall (term rules) (map tk_ty input) -> exists b, validates t input b).
Proof.
  exact (fun T OT dbg start eof rules g W Hg k t Hm Hk He Hf Hs Hp Hr Hc => conj
    (clean_no_unit dbg start eof rules g W Hg k t Hm Hk He Hf Hs Hp Hr Hc) (clean_total dbg start eof rules g W Hg k t Hm Hk He Hf Hs Hp Hr Hc)).
Qed.
Print Assumptions C59_clean_terminates.

Example C20_C50_C59_example : wf_rules calc /\ grammar_new true "Z" calc "$" = Val (calc_g true) /\ term calc "$" /\ no_unit_cycle calc /\
  start_fresh calc "Z" /\ productive calc /\ reachable calc "Z" /\ covers calc calc_maps /\ Forall (term calc) (map tk_ty calc_bad) /\ carries (calc_tab LALR) /\
  forall k, makes k true (calc_g true) (calc_tab k) /\ conflicts (t_actions (calc_tab k)) = [].
Proof.
  exact (conj calc_wf (conj (calc_gE true) (conj calc_eof (conj calc_nounit (conj calc_fresh (conj calc_productive (conj calc_reachable (conj calc_covers
    (conj calc_bad_terms (conj calc_carries (fun k => conj (calc_makes k) (calc_clean k)))))))))))).
Qed.

(** ** C21 *)
(** In a release build, Clr and Lalr parsers panic on a token whose type is a nonterminal. *)
Theorem C21_never_fails_refuted :
  exists (rules : rulemap string) (start eof : string) (g : grammar string) (maps : reductmap string unit) (input : list (token string unit)),
  wf_rules rules /\ grammar_new false start rules eof = Val g /\ term rules eof /\ start_fresh rules start /\ covers rules maps /\
  forall k, k <> SLR -> exists t fuel p, makes k false g t /\ parser_parse fuel t input maps = Panic p.
Proof. exact tri3_refutes. Qed.
Print Assumptions C21_never_fails_refuted.

(** It holds in debug builds for any tokens, in release builds for any tokens when FIRST and FOLLOW hold
    only terminals, and in release builds for tokens typed with terminals.  Missing: the rest, refuted above. *)
Theorem C21_never_fails_partial : forall (T : Type) (OT : Ord T) (dbg : bool) (start eof : T) (rules : rulemap T) (g : grammar T),
  wf_rules rules -> grammar_new dbg start rules eof = Val g -> forall k t, makes k dbg g t -> term rules eof ->
  forall M (maps : reductmap T M) input, dbg = true \/ only_terminals t \/ Forall (term rules) (map tk_ty input) ->
  (covers rules maps -> forall fuel p, parser_parse fuel t input maps <> Panic p) /\
  (forall rest e, fails t input maps rest e -> e <> StateNotSpecified /\ e <> MissingPreviousState /\
     (e = UnexpectedEof -> exists A i rhs, prod_at rules A i rhs /\ In eof rhs)).
Proof. exact @no_internal. Qed.
Print Assumptions C21_never_fails_partial.

(** ** C51: debug builds *)
Theorem C51_never_fails_debug : forall (T : Type) (OT : Ord T) (start eof : T) (rules : rulemap T) (g : grammar T),
  wf_rules rules -> grammar_new true start rules eof = Val g -> forall k t, makes k true g t -> term rules eof ->
  forall M (maps : reductmap T M) input,
  (covers rules maps -> forall fuel p, parser_parse fuel t input maps <> Panic p) /\
  (forall rest e, fails t input maps rest e -> e <> StateNotSpecified /\ e <> MissingPreviousState /\
     (e = UnexpectedEof -> exists A i rhs, prod_at rules A i rhs /\ In eof rhs)).
Proof.
  exact (fun T OT start eof rules g W Hg k t Hm He M maps input => no_internal true start eof rules g W Hg k t Hm He M maps input (or_introl eq_refl)).
Qed.
Print Assumptions C51_never_fails_debug.

(** a token typed with a nonterminal: no panic, but the parsers run forever *)
Example C21_C51_example : wf_rules nt /\ grammar_new true "Z" nt "$" = Val nt_g /\ term nt "$" /\ covers nt (empty_map nt_g) /\ nonterm nt "A" /\
  forall k, makes k true nt_g (tab k true 60 nt_g) /\ forall fuel, parser_parse fuel (tab k true 60 nt_g) (to_tokens ["A"]) (empty_map nt_g) = Fuel.
Proof. exact nt_facts. Qed.

(** ** C23 *)
Theorem C23_viable_prefix : forall (T : Type) (OT : Ord T) (dbg : bool) (start eof : T) (rules : rulemap T) (g : grammar T),
  wf_rules rules -> grammar_new dbg start rules eof = Val g -> forall k t, makes k dbg g t -> term rules eof -> productive rules ->
  forall M (maps : reductmap T M) used rest,
  (forall d, reaches t (used ++ rest) maps d -> d_buffer d = rest -> viable rules start (map tk_ty used)) /\
  (forall e, fails t (used ++ rest) maps rest e -> viable rules start (map tk_ty used)).
Proof. exact @viable_prefix. Qed.
Print Assumptions C23_viable_prefix.

(** ** C37 *)
Theorem C37_clr_immediate : forall (T : Type) (OT : Ord T) (dbg : bool) (start eof : T) (rules : rulemap T) (g : grammar T),
  wf_rules rules -> grammar_new dbg start rules eof = Val g -> forall t, makes CLR dbg g t -> term rules eof -> productive rules ->
  forall M (maps : reductmap T M) used rest d row A pr,
  reaches t (used ++ rest) maps d -> d_buffer d = rest -> term rules (lookahead d) ->
  nth_error (t_actions t) (d_top d) = Some row -> bm_get (lookahead d) row = Some (Reduce A pr) ->
  (lookahead d = eof /\ sentence rules start (map tk_ty used)) \/ viable rules start (map tk_ty used ++ [lookahead d]).
Proof. exact @reduces_general. Qed.
Print Assumptions C37_clr_immediate.

(** after shifting 1, on +, the parser reduces T -> n *)
Example C23_C37_example : wf_rules calc /\ grammar_new true "Z" calc "$" = Val (calc_g true) /\ term calc "$" /\ productive calc /\
  forall k, makes k true (calc_g true) (calc_tab k) /\
  exists d row, reaches (calc_tab k) calc_input calc_maps d /\ calc_input = [mkTok 1 "n"] ++ d_buffer d /\ lookahead d = "+" /\ term calc "+" /\
    nth_error (t_actions (calc_tab k)) (d_top d) = Some row /\ bm_get (lookahead d) row = Some (Reduce "T" (["n"], 0)).
Proof.
  exact (conj calc_wf (conj (calc_gE true) (conj calc_eof (conj calc_productive (fun k => conj (calc_makes k) (calc_reduces k)))))).
Qed.

(** ** C39 *)
(** Replacing the unread input, keeping the type of its first token (or its absence), changes neither the configurations
    reached nor the error reported. *)
Theorem C39_local : forall (T : Type) (OT : Ord T) (dbg : bool) (start eof : T) (rules : rulemap T) (g : grammar T),
  wf_rules rules -> grammar_new dbg start rules eof = Val g -> forall M (maps : reductmap T M) k t, makes k dbg g t ->
  forall x y y', hd_error (map tk_ty y') = hd_error (map tk_ty y) ->
  (forall d, reaches t (x ++ y) maps d -> d_buffer d = y -> exists d', reaches t (x ++ y') maps d' /\ d_buffer d' = y' /\
     d_states d' = d_states d /\ d_items d' = d_items d /\ d_top d' = d_top d /\ d_finished d' = d_finished d) /\
  (forall e, fails t (x ++ y) maps y e -> fails t (x ++ y') maps y' e).
Proof.
  exact (fun T OT dbg start eof rules g W Hg M maps k t Hm x y y' Hh => conj
    (fun d R E => ex_intro _ (with_rest d y') (conj (reaches_local dbg start eof rules g W Hg maps k t Hm x y y' d R E Hh)
      (conj eq_refl (conj eq_refl (conj eq_refl (conj eq_refl eq_refl))))))
    (fun e => fails_local dbg start eof rules g W Hg maps k t Hm _ _ x y y' e eq_refl eq_refl Hh)).
Qed.
Print Assumptions C39_local.

Example C39_example : wf_rules calc /\ grammar_new true "Z" calc "$" = Val (calc_g true) /\ forall k, makes k true (calc_g true) (calc_tab k) /\
  exists d, reaches (calc_tab k) ([mkTok 1 "n"] ++ skipn 1 calc_input) calc_maps d /\ d_buffer d = skipn 1 calc_input /\
    hd_error (map tk_ty [mkTok 9 "+"]) = hd_error (map tk_ty (skipn 1 calc_input)).
Proof. exact (conj calc_wf (conj (calc_gE true) (fun k => conj (calc_makes k) (calc_local k)))). Qed.
