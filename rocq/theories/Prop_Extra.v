(** C81 - C87 *)
From Coq Require Import List Bool Arith String.
From Verif Require Import BTree Model Strings Spec SpecP Interface Wrap Reduce Final Check Export Examples Refute Expect Iter Values Refute3.
Import ListNotations.
Local Open Scope string_scope.
Local Open Scope list_scope.
Local Notation length := List.length.

(** ** C81 *)
(** The list in an [UnexpectedToken] of a Clr parser: its terminals are exactly the symbols that could
    have come next, its nonterminals are some of the phrases that could have. *)
Theorem C81_expected_exact : forall (T : Type) (OT : Ord T) (dbg : bool) (start eof : T) (rules : rulemap T) (g : grammar T),
  wf_rules rules -> grammar_new dbg start rules eof = Val g -> forall t, makes CLR dbg g t -> term rules eof ->
  dbg = true \/ (single_start rules start /\ only_terminals t) -> productive rules ->
  forall M (maps : reductmap T M) used rest x es, M -> covers rules maps ->
  match rest with [] => True | tok :: _ => term rules (tk_ty tok) end ->
  fails t (used ++ rest) maps rest (UnexpectedToken x es) ->
  (forall a, term rules a -> (In a es <-> (a = eof /\ sentence rules start (map tk_ty used)) \/ viable rules start (map tk_ty used ++ [a]))) /\
  (forall A, nonterm rules A -> In A es -> exists v, derives rules [start] (map tk_ty used ++ A :: v)).
Proof. exact @expected_list. Qed.
Print Assumptions C81_expected_exact.

(** calc on n + +: after n + the parser expects (, T and n *)
Example C81_example : wf_rules calc /\ grammar_new true "Z" calc "$" = Val (calc_g true) /\ makes CLR true (calc_g true) (calc_tab CLR) /\ term calc "$" /\
  productive calc /\ covers calc calc_maps /\
  fails (calc_tab CLR) ([mkTok 1 "n"; mkTok 0 "+"] ++ [mkTok 0 "+"]) calc_maps [mkTok 0 "+"] (UnexpectedToken "+" ["("; "T"; "n"]).
Proof. exact (conj calc_wf (conj (calc_gE true) (conj (calc_makes CLR) (conj calc_eof (conj calc_productive (conj calc_covers (calc_fails CLR))))))). Qed.

(** ** C82 *)
(** One [reduce_equals] can leave equal rows: merging rows makes other rows equal. *)
Theorem C82_reduce_equals_leaves_none_refuted :
  exists (rules : rulemap string) (start eof : string) (g : grammar string) (t t' : tabler string),
  wf_rules rules /\ grammar_new true start rules eof = Val g /\ makes CLR true g t /\ reduce_equals true t = Val t' /\ ~ NoDup (t_actions t').
Proof.
  exact (ex_intro _ shrink2 (ex_intro _ "Z" (ex_intro _ "$" (ex_intro _ shrink2_g (ex_intro _ shrink2_t (ex_intro _ shrink2_r
    (conj shrink2_wf (conj shrink2_gE (conj shrink2_makes (conj shrink2_reduce shrink2_dup)))))))))).
Qed.
Print Assumptions C82_reduce_equals_leaves_none_refuted.

(** Missing: one call.  With as many calls as there are rows no two rows are equal, a further call
    changes nothing, and every parse comes out as before but for the state numbers in conflicts. *)
Theorem C82_reduce_equals_leaves_none_partial : forall (T : Type) (OT : Ord T) (dbg : bool) (start eof : T) (rules : rulemap T) (g : grammar T) k t,
  wf_rules rules -> grammar_new dbg start rules eof = Val g -> makes k dbg g t ->
  forall n, exists f t', reduce_times dbg n t = Val t' /\
  (forall M (maps : reductmap T M) input fuel,
    parser_parse fuel t' input maps = match parser_parse fuel t input maps with Val r => Val (ren_res f r) | x => x end) /\
  (length (t_actions t) <= S n -> NoDup (t_actions t') /\ reduce_equals dbg t' = Val t') /\
  t_states t' = t_states t /\ t_kernels t' = t_kernels t.
Proof. exact @reduce_until. Qed.
Print Assumptions C82_reduce_equals_leaves_none_partial.

Example C82_example : wf_rules shrink2 /\ grammar_new true "Z" shrink2 "$" = Val shrink2_g /\ makes CLR true shrink2_g shrink2_t /\
  length (t_actions shrink2_t) = 15 /\ length (t_actions shrink2_r) = 14 /\ exists t, reduce_times true 2 shrink2_t = Val t /\ length (t_actions t) = 13.
Proof. exact (conj shrink2_wf (conj shrink2_gE (conj shrink2_makes shrink2_counts))). Qed.

(** ** C83 *)
(** [reduce_equals] leaves [kernels] alone, so that a kernel can lead to a state without a row. *)
Theorem C83_reduce_equals_kernels_refuted :
  exists (rules : rulemap string) (start eof : string) (g : grammar string) (t t' : tabler string) (st : state string) (q : nat),
  wf_rules rules /\ grammar_new true start rules eof = Val g /\ makes CLR true g t /\ reduce_equals true t = Val t' /\
  In (st, q) (t_kernels t') /\ nth_error (t_actions t') q = None.
Proof.
  exact (match shrink2_lost with ex_intro _ st (ex_intro _ q H) =>
    ex_intro _ shrink2 (ex_intro _ "Z" (ex_intro _ "$" (ex_intro _ shrink2_g (ex_intro _ shrink2_t (ex_intro _ shrink2_r (ex_intro _ st (ex_intro _ q
    (conj shrink2_wf (conj shrink2_gE (conj shrink2_makes (conj shrink2_reduce H))))))))))) end).
Qed.
Print Assumptions C83_reduce_equals_kernels_refuted.

(** Missing: tables with equal rows.  If there are none, [reduce_equals] changes nothing. *)
Theorem C83_reduce_equals_kernels_partial : forall (T : Type) (OT : Ord T) (dbg : bool) (start eof : T) (rules : rulemap T) (g : grammar T) k t,
  wf_rules rules -> grammar_new dbg start rules eof = Val g -> makes k dbg g t -> NoDup (t_actions t) -> reduce_equals dbg t = Val t.
Proof. exact @reduce_distinct. Qed.
Print Assumptions C83_reduce_equals_kernels_partial.

Example C83_example : wf_rules calc /\ grammar_new true "Z" calc "$" = Val (calc_g true) /\ forall k, makes k true (calc_g true) (calc_tab k) /\ NoDup (t_actions (calc_tab k)).
Proof. exact (conj calc_wf (conj (calc_gE true) (fun k => conj (calc_makes k) (calc_distinct k)))). Qed.

(** ** C84 *)
(** Whatever the table: on inputs with the same types and reductor maps defined at the same places the
    driver returns, panics and fails alike, whatever the values and the functions are. *)
Theorem C84_values_do_not_matter : forall (T : Type) (OT : Ord T) (M1 M2 : Type) (t : tabler T) (maps1 : reductmap T M1) (maps2 : reductmap T M2) input1 input2 fuel,
  same_domain maps1 maps2 -> map tk_ty input1 = map tk_ty input2 ->
  match parser_parse fuel t input1 maps1, parser_parse fuel t input2 maps2 with
  | Val (POk _), Val (POk _) => True
  | Val (PErr e1), Val (PErr e2) => e1 = e2
  | Panic p1, Panic p2 => p1 = p2
  | Fuel, Fuel => True
  | _, _ => False
  end.
Proof. exact @verdict_eq. Qed.
Print Assumptions C84_values_do_not_matter.

Example C84_example : same_domain (cloned_map (calc_g true) "?") calc_maps /\ map tk_ty calc_strings = map tk_ty calc_numbers /\
  forall k, parses (calc_tab k) calc_strings (cloned_map (calc_g true) "?") (POk "E") /\ parses (calc_tab k) calc_numbers calc_maps (POk 3).
Proof. exact (conj calc_domain (conj eq_refl (fun k => conj (calc_cloned k) (calc_numbers_parses k)))). Qed.

(** ** C85 *)
(** With the reductors of [Parser::cloned] the result is the value of the last token if that is the last
    symbol of the start production, and otherwise the first symbol of the production the last symbol of
    the start production was expanded with. *)
Theorem C85_cloned : forall (T : Type) (OT : Ord T) (dbg : bool) (start eof : T) (rules : rulemap T) (g : grammar T),
  wf_rules rules -> grammar_new dbg start rules eof = Val g -> forall k t dflt, makes k dbg g t -> term rules eof -> start_fresh rules start ->
  forall input v, parses t input (cloned_map g dflt) (POk v) ->
  exists u X w1 w2, prod_at rules start 0 (u ++ [X]) /\ input = w1 ++ w2 /\ derives rules u (map tk_ty w1) /\
    ((term rules X /\ exists tok, w2 = [tok] /\ tk_ty tok = X /\ v = tk_item tok) \/
     (nonterm rules X /\ exists i rhs, prod_at rules X i (v :: rhs) /\ derives rules (v :: rhs) (map tk_ty w2))).
Proof. exact @cloned_value. Qed.
Print Assumptions C85_cloned.

(** 1 + 2 was read with E -> E + T *)
Example C85_example : wf_rules calc /\ grammar_new true "Z" calc "$" = Val (calc_g true) /\ term calc "$" /\ start_fresh calc "Z" /\
  forall k, makes k true (calc_g true) (calc_tab k) /\ parses (calc_tab k) calc_strings (cloned_map (calc_g true) "?") (POk "E").
Proof. exact (conj calc_wf (conj (calc_gE true) (conj calc_eof (conj calc_fresh (fun k => conj (calc_makes k) (calc_cloned k)))))). Qed.

(** ** C86 *)
(** [start] fails with [IncompleteExec]; called once more it returns [Ok]. *)
Theorem C86_start_again_refuted :
  exists (rules : rulemap string) (start eof : string) (g : grammar string) (t : tabler string) (input : list (token string nat)) (maps : reductmap string nat) d d',
  wf_rules rules /\ grammar_new true start rules eof = Val g /\ makes SLR true g t /\ covers rules maps /\
  parser_dfa t input maps = Val d /\ dfa_start 60 d = Val (d', Err IncompleteExec) /\ dfa_start 1 d' = Val (d', Ok).
Proof.
  exact (ex_intro _ calc (ex_intro _ "Z" (ex_intro _ "$" (ex_intro _ (calc_g true) (ex_intro _ (calc_tab SLR) (ex_intro _ inc_input (ex_intro _ calc_maps (ex_intro _ (inc_d SLR) (ex_intro _ (inc_d' SLR)
    (conj calc_wf (conj (calc_gE true) (conj (calc_makes SLR) (conj calc_covers (conj (inc_start SLR) (conj (inc_first SLR) (inc_again SLR)))))))))))))))).
Qed.
Print Assumptions C86_start_again_refuted.

(** Missing: [IncompleteExec], after which a second call always returns [Ok].  After [Ok] it returns [Ok]
    and changes nothing; every other error of a parser is returned again and again, from an unchanged
    configuration (a conflict: if the lookaheads are terminals, as they are in debug builds). *)
Theorem C86_start_again_partial :
  (forall (T : Type) (OT : Ord T) (M : Type) (d d' : dfa T M) o fuel, dfa_start fuel d = Val (d', o) -> o = Ok \/ o = Err IncompleteExec ->
     forall fuel', dfa_start (S fuel') d' = Val (d', Ok)) /\
  (forall (T : Type) (OT : Ord T) (M : Type) (dbg : bool) (start eof : T) (rules : rulemap T) (g : grammar T),
     wf_rules rules -> grammar_new dbg start rules eof = Val g ->
     forall k t (maps : reductmap T M) input d d' e fuel, makes k dbg g t -> term rules eof ->
     (forall a b, e = ConflictErr a b -> dbg = true \/ only_terminals t) ->
     Forall (term rules) (map tk_ty input) -> parser_dfa t input maps = Val d -> dfa_start fuel d = Val (d', Err e) -> e <> IncompleteExec ->
     exists fuel', dfa_start fuel' d' = Val (d', Err e)).
Proof. exact (conj (@start_again_ok) (@start_again_err)). Qed.
Print Assumptions C86_start_again_partial.

Example C86_example : wf_rules calc /\ grammar_new true "Z" calc "$" = Val (calc_g true) /\ term calc "$" /\ Forall (term calc) (map tk_ty calc_bad) /\
  forall k, makes k true (calc_g true) (calc_tab k) /\ parser_dfa (calc_tab k) calc_bad calc_maps = Val (bad_d k) /\
  dfa_start 60 (bad_d k) = Val (bad_d' k, Err (UnexpectedToken "+" ["("; "T"; "n"])).
Proof. exact (conj calc_wf (conj (calc_gE true) (conj calc_eof (conj calc_bad_terms (fun k => conj (calc_makes k) (conj (bad_start k) (bad_first k))))))). Qed.

(** ** C87 *)
(** In a release build the column of a nonterminal can hold a conflict with a reduction. *)
Theorem C87_columns_refuted :
  exists (rules : rulemap string) (start eof : string) (g : grammar string) (t : tabler string) A,
  wf_rules rules /\ grammar_new false start rules eof = Val g /\ makes CLR false g t /\ term rules eof /\ nonterm rules A /\
  exists q row a, nth_error (t_actions t) q = Some row /\ bm_get A row = Some a /\ is_conflict a = true.
Proof.
  exact (ex_intro _ tri2 (ex_intro _ "Z" (ex_intro _ "$" (ex_intro _ tri2_g (ex_intro _ (tab CLR false 60 tri2_g) (ex_intro _ "B"
    (conj tri2_wf (conj tri2_gE (conj (tri2_makes CLR) (conj tri2_eof (conj tri2_B tri2_column))))))))))).
Qed.
Print Assumptions C87_columns_refuted.

(** Gotos stand in the columns of nonterminals only; in debug builds, or if FIRST and FOLLOW hold
    terminals only, nothing else stands there. *)
Theorem C87_columns_partial : forall (T : Type) (OT : Ord T) (dbg : bool) (start eof : T) (rules : rulemap T) (g : grammar T),
  wf_rules rules -> grammar_new dbg start rules eof = Val g -> forall k t, makes k dbg g t ->
  forall q row x a, nth_error (t_actions t) q = Some row -> bm_get x row = Some a ->
  (term rules x -> forall n, ~ inside (Goto n) a) /\
  (term rules eof -> dbg = true \/ only_terminals t -> nonterm rules x -> exists n, a = Goto n).
Proof. exact @table_columns. Qed.
Print Assumptions C87_columns_partial.

Example C87_example : wf_rules calc /\ grammar_new true "Z" calc "$" = Val (calc_g true) /\ term calc "$" /\ nonterm calc "E" /\ term calc "n" /\
  forall k, makes k true (calc_g true) (calc_tab k) /\
  exists q row, nth_error (t_actions (calc_tab k)) q = Some row /\ (exists a, bm_get "E" row = Some a) /\ exists b, bm_get "n" row = Some b.
Proof. exact (conj calc_wf (conj (calc_gE true) (conj calc_eof (conj calc_E (conj calc_n (fun k => conj (calc_makes k) (calc_row k))))))). Qed.
