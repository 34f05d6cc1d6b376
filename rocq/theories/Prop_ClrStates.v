(** C130: Clr's states and the canonical LR(1) collection *)
From Coq Require Import List Bool Arith String.
From Verif Require Import BTree Model Strings Grammars Spec SpecP Interface Check Examples Refute Refute2 LR1Spec ValidSpec CanonSpec ClrStates WorkEx ClrStatesEx.
Import ListNotations.
Local Open Scope string_scope.
Local Open Scope list_scope.
Local Notation length := List.length.

(** ** C130 *)
(** Prefixes after which the same LR(1) items are valid lead to the same state of Clr's table: they need not, as the positions carry sets of
    lookaheads, and the same lookaheads can come in one set or in several. *)
Theorem C130_canonical_refuted : ~ (forall (dbg : bool) (start eof : string) (rules : rulemap string) (g : grammar string) (t : tabler string),
  wf_rules rules -> grammar_new dbg start rules eof = Val g -> makes CLR dbg g t -> term rules eof -> dbg = true -> productive rules -> conflicts (t_actions t) = [] ->
  forall q qs xs q' qs' xs', stack_path t (q :: qs) xs -> stack_path t (q' :: qs') xs' -> same_valid rules start eof (rev xs) (rev xs') -> q = q').
Proof. exact canonical_refuted. Qed.
Print Assumptions C130_canonical_refuted.

(** They do lead to states with the same LR(1) items, and only they do. *)
Theorem C130_prefixes : forall (T : Type) (OT : Ord T) (dbg : bool) (start eof : T) (rules : rulemap T) (g : grammar T),
  wf_rules rules -> grammar_new dbg start rules eof = Val g -> forall t, makes CLR dbg g t -> term rules eof ->
  dbg = true \/ single_start rules start -> dbg = true \/ only_terminals t -> productive rules ->
  forall q qs xs q' qs' xs', stack_path t (q :: qs) xs -> stack_path t (q' :: qs') xs' ->
  (same_lr1 t q q' <-> same_valid rules start eof (rev xs) (rev xs')).
Proof. exact @same_prefixes. Qed.
Print Assumptions C130_prefixes.

Example C130_prefixes_example : wf_rules twin /\ grammar_new true "Z" twin "$" = Val twin_g /\ makes CLR true twin_g twin_t /\ term twin "$" /\ productive twin /\
  stack_path twin_t [5; 2; 0] ["a"; "x"] /\ stack_path twin_t [7; 3; 0] ["a"; "y"] /\ same_lr1 twin_t 5 7 /\ ~ same_lr1 twin_t 2 3.
Proof.
  destruct twin_facts as (H1 & H2 & H3 & H4), twin_paths as (H5 & H6).
  exact (conj H1 (conj H2 (conj H3 (conj H4 (conj twin_productive (conj H5 (conj H6 (conj twin_same (proj2 (proj2 three_differ)))))))))).
Qed.

(** Such states do the same: for every action in an entry of the one there is one in the entry of the other that is the same or moves to such a
    state, and the same entries are conflicts. *)
Theorem C130_alike : forall (T : Type) (OT : Ord T) (dbg : bool) (start eof : T) (rules : rulemap T) (g : grammar T),
  wf_rules rules -> grammar_new dbg start rules eof = Val g -> forall t, makes CLR dbg g t -> term rules eof -> dbg = true \/ only_terminals t ->
  forall q q', same_lr1 t q q' -> forall m m', nth_error (t_actions t) q = Some m -> nth_error (t_actions t) q' = Some m' ->
  (forall x a b, bm_get x m = Some a -> inside b a -> exists a' b', bm_get x m' = Some a' /\ inside b' a' /\ alike t b b') /\
  (forall x, (exists a b, bm_get x m = Some (Conflict a b)) <-> (exists a b, bm_get x m' = Some (Conflict a b))).
Proof. exact @same_entries. Qed.
Print Assumptions C130_alike.

Example C130_alike_example : wf_rules twin /\ grammar_new true "Z" twin "$" = Val twin_g /\ makes CLR true twin_g twin_t /\ term twin "$" /\ same_lr1 twin_t 5 7 /\
  nth_error (t_actions twin_t) 5 = Some [("b", Reduce "A" (["a"], 0)); ("c", Reduce "A" (["a"], 0))] /\
  nth_error (t_actions twin_t) 7 = Some [("b", Reduce "A" (["a"], 0)); ("c", Reduce "A" (["a"], 0))].
Proof. destruct twin_facts as (H1 & H2 & H3 & H4). exact (conj H1 (conj H2 (conj H3 (conj H4 (conj twin_same twin_entries))))). Qed.

(** Clr's states are those of the canonical collection if whatever comes right after a nonterminal begins with one terminal only. *)
Theorem C130_canonical_partial : forall (T : Type) (OT : Ord T) (dbg : bool) (start eof : T) (rules : rulemap T) (g : grammar T),
  wf_rules rules -> grammar_new dbg start rules eof = Val g -> forall t, makes CLR dbg g t -> dbg = true \/ only_terminals t -> one_first rules ->
  forall q q', q < length (t_states t) -> q' < length (t_states t) -> same_lr1 t q q' -> q = q'.
Proof. exact @same_states. Qed.
Print Assumptions C130_canonical_partial.

Example C130_canonical_example : wf_rules calc /\ grammar_new true "Z" calc "$" = Val (calc_g true) /\ makes CLR true (calc_g true) (calc_tab CLR) /\ one_first calc /\
  length (t_states (calc_tab CLR)) = 16.
Proof. exact (conj calc_wf (conj (calc_gE true) (conj (calc_makes CLR) (conj calc_one_first calc_sixteen)))). Qed.

(** There are never fewer than the canonical collection has. *)
Theorem C130_enough : forall (T : Type) (OT : Ord T) (dbg : bool) (start eof : T) (rules : rulemap T) (g : grammar T),
  wf_rules rules -> grammar_new dbg start rules eof = Val g -> forall t, makes CLR dbg g t -> term rules eof ->
  dbg = true \/ single_start rules start -> dbg = true \/ only_terminals t -> productive rules ->
  forall pres, (forall pre, In pre pres -> exists A i u v, valid_after rules start pre A i u v) ->
  ForallOrdPairs (fun pre pre' => ~ same_valid rules start eof pre pre') pres -> length pres <= length (t_states t).
Proof. exact @enough_states. Qed.
Print Assumptions C130_enough.

Example C130_enough_example : wf_rules twin /\ grammar_new true "Z" twin "$" = Val twin_g /\ makes CLR true twin_g twin_t /\ term twin "$" /\ productive twin /\
  (forall pre, In pre [[]; ["x"]; ["y"]] -> exists A i u v, valid_after twin "Z" pre A i u v) /\
  ForallOrdPairs (fun pre pre' => ~ same_valid twin "Z" "$" pre pre') [[]; ["x"]; ["y"]].
Proof. destruct twin_facts as (H1 & H2 & H3 & H4). exact (conj H1 (conj H2 (conj H3 (conj H4 (conj twin_productive three_valid))))). Qed.

(** At most two to the number of places within right-hand sides times one more than the number of symbols of states with Clr, ... *)
Theorem C130_count : forall (T : Type) (OT : Ord T) (dbg : bool) (start eof : T) (rules : rulemap T) (g : grammar T),
  wf_rules rules -> grammar_new dbg start rules eof = Val g -> forall t, makes CLR dbg g t ->
  forall U, (forall A i rhs p, prod_at rules A i rhs -> 0 < p <= length rhs -> In (A, i, p) U) -> length (t_states t) <= 2 ^ (length U * S (length (g_symbols g))).
Proof. exact @clr_count. Qed.
Print Assumptions C130_count.

(** ... times two with Slr, also if the start symbol is on a right-hand side. *)
Theorem C130_slr : forall (T : Type) (OT : Ord T) (dbg : bool) (start eof : T) (rules : rulemap T) (g : grammar T),
  wf_rules rules -> grammar_new dbg start rules eof = Val g -> forall t, makes SLR dbg g t ->
  forall U, (forall A i rhs p, prod_at rules A i rhs -> 0 < p <= length rhs -> In (A, i, p) U) -> length (t_states t) <= 2 ^ (length U * 2).
Proof. exact @slr_count. Qed.
Print Assumptions C130_slr.

Example C130_count_example : wf_rules calc /\ grammar_new true "Z" calc "$" = Val (calc_g true) /\ (forall k, makes k true (calc_g true) (calc_tab k)) /\
  length calc_places = 9 /\ (forall A i rhs p, prod_at calc A i rhs -> 0 < p <= length rhs -> In (A, i, p) calc_places) /\ length (g_symbols (calc_g true)) = 8.
Proof. exact (conj calc_wf (conj (calc_gE true) (conj calc_makes (conj eq_refl (conj calc_places_all calc_eight))))). Qed.
