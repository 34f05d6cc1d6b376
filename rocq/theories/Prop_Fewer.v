(** C135: leaving alternatives out makes no conflicts *)
From Coq Require Import List Bool Arith String.
From Verif Require Import BTree Model Spec Interface Examples FewerSpec Fewer FewerEx.
Import ListNotations.
Local Open Scope string_scope.
Local Open Scope list_scope.

(** If Slr or Clr finds no conflict in a grammar, it finds none in one with fewer alternatives. *)
Theorem C135_clean : forall (T : Type) (OT : Ord T) (dbg1 dbg2 : bool) (start eof : T) (r1 r2 : rulemap T) (g1 g2 : grammar T),
  wf_rules r1 -> wf_rules r2 -> grammar_new dbg1 start r1 eof = Val g1 -> grammar_new dbg2 start r2 eof = Val g2 ->
  term r1 eof -> term r2 eof -> fewer r1 r2 start ->
  forall k t1 t2, k <> LALR -> makes k dbg1 g1 t1 -> makes k dbg2 g2 t2 -> dbg1 = true \/ only_terminals t1 ->
  conflicts (t_actions t2) = [] -> conflicts (t_actions t1) = [].
Proof. exact @fewer_clean. Qed.
Print Assumptions C135_clean.

(** Each conflict of the smaller grammar is one of the larger, after the same symbols and before the same terminal. *)
Theorem C135_where : forall (T : Type) (OT : Ord T) (dbg1 dbg2 : bool) (start eof : T) (r1 r2 : rulemap T) (g1 g2 : grammar T),
  wf_rules r1 -> wf_rules r2 -> grammar_new dbg1 start r1 eof = Val g1 -> grammar_new dbg2 start r2 eof = Val g2 ->
  term r1 eof -> term r2 eof -> fewer r1 r2 start ->
  forall k t1 t2, k <> LALR -> makes k dbg1 g1 t1 -> makes k dbg2 g2 t2 -> dbg1 = true \/ only_terminals t1 ->
  forall q qs Xs row x a b, stack_path t1 (q :: qs) Xs -> nth_error (t_actions t1) q = Some row -> bm_get x row = Some (Conflict a b) ->
  exists q2 qs2 row2 a2 b2, stack_path t2 (q2 :: qs2) Xs /\ nth_error (t_actions t2) q2 = Some row2 /\ bm_get x row2 = Some (Conflict a2 b2).
Proof. exact @fewer_where. Qed.
Print Assumptions C135_where.

(** E -> E + T | E - T | T; T -> n | F; F -> ( E ), and that without E - T and without brackets *)
Example C135_clean_example : wf_rules sums1 /\ wf_rules sums2 /\ grammar_new true "Z" sums1 "$" = Val sums1_g /\ grammar_new true "Z" sums2 "$" = Val sums2_g /\
  term sums1 "$" /\ term sums2 "$" /\ fewer sums1 sums2 "Z" /\
  (forall k, makes k true sums1_g (sums1_t k)) /\ (forall k, makes k true sums2_g (sums2_t k)) /\ (forall k, conflicts (t_actions (sums2_t k)) = []).
Proof. exact (conj sums1_wf (conj sums2_wf (conj sums1_gE (conj sums2_gE (conj (proj1 sums_eof) (conj (proj2 sums_eof) (conj sums_fewer (conj sums1_makes (conj sums2_makes sums2_clean))))))))). Qed.

(** E -> E * E | E + E | n, and that without E * E *)
Example C135_where_example : wf_rules amb1 /\ wf_rules amb2 /\ grammar_new true "Z" amb1 "$" = Val amb1_g /\ grammar_new true "Z" amb2 "$" = Val amb2_g /\
  term amb1 "$" /\ term amb2 "$" /\ fewer amb1 amb2 "Z" /\ (forall k, makes k true amb1_g (amb1_t k)) /\ (forall k, makes k true amb2_g (amb2_t k)) /\
  forall k, exists q qs row a b, stack_path (amb1_t k) (q :: qs) ["E"; "+"; "E"] /\ nth_error (t_actions (amb1_t k)) q = Some row /\ bm_get "+" row = Some (Conflict a b).
Proof. exact (conj amb1_wf (conj amb2_wf (conj amb1_gE (conj amb2_gE (conj (proj1 amb_eof) (conj (proj2 amb_eof) (conj amb_fewer (conj amb1_makes (conj amb2_makes amb1_conflict))))))))). Qed.

(** Lalr does find a conflict where there was none: it merges states that the alternative left out kept apart. *)
Example C135_lalr_refused : wf_rules mix1 /\ wf_rules mix2 /\ grammar_new true "Z" mix1 "$" = Val mix1_g /\ grammar_new true "Z" mix2 "$" = Val mix2_g /\
  term mix1 "$" /\ term mix2 "$" /\ fewer mix1 mix2 "Z" /\ makes LALR true mix1_g (mix1_t LALR) /\ makes LALR true mix2_g (mix2_t LALR) /\
  conflicts (t_actions (mix2_t LALR)) = [] /\ conflicts (t_actions (mix1_t LALR)) <> [].
Proof. exact (conj mix1_wf (conj mix2_wf (conj mix1_gE (conj mix2_gE (conj (proj1 mix_eof) (conj (proj2 mix_eof) (conj mix_fewer (conj (mix1_makes LALR) (conj (mix2_makes LALR) mix_conflicts))))))))). Qed.

(** An input keeps its value when alternatives are added that make no conflict: whatever table accepted it before (conflicts or not, by any
    method), a table of the larger grammar without conflicts accepts it with the same value, if the old alternatives keep their functions. *)
Theorem C135_values : forall (T : Type) (OT : Ord T) (M : Type) (f : T -> nat -> nat) (start : T) (r1 r2 : rulemap T) (maps1 maps2 : reductmap T M),
  fewer_by f r1 r2 start -> same_functions f r1 maps1 maps2 ->
  forall dbg1 dbg2 eof g1 g2 k1 k2 t1 t2 input m, wf_rules r1 -> wf_rules r2 ->
  grammar_new dbg1 start r1 eof = Val g1 -> grammar_new dbg2 start r2 eof = Val g2 -> term r1 eof -> term r2 eof -> start_fresh r2 start ->
  makes k1 dbg1 g1 t1 -> makes k2 dbg2 g2 t2 -> k2 <> LALR \/ carries t2 -> conflicts (t_actions t2) = [] ->
  parses t1 input maps1 (POk m) -> parses t2 input maps2 (POk m).
Proof. exact @fewer_values. Qed.
Print Assumptions C135_values.

(** 4 + 5 + 6 *)
Example C135_values_example : fewer_by sums_f sums1 sums2 "Z" /\ same_functions sums_f sums1 sums1_maps sums2_maps /\ start_fresh sums2 "Z" /\
  carries (sums2_t LALR) /\ forall k, parses (sums1_t k) sums_in sums1_maps (POk 15).
Proof. exact (conj sums_by (conj sums_functions (conj sums2_fresh (conj sums2_carries sums1_parses)))). Qed.
