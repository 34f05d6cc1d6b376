(** C136: Lalr's table is Clr's folded *)
From Coq Require Import List Bool Arith String.
From Verif Require Import BTree Model Spec Interface StatesSpec LR1Spec ValidSpec Examples Refute Refute4 PassEx FewerEx FoldSpec Fold FoldEx.
Import ListNotations.
Local Open Scope string_scope.
Local Open Scope list_scope.

(** If Lalr's lookaheads are as C123 has it, its table is Clr's with the states that have the same items put together: a cell holds what the
    cells of those states hold in the same column, with the targets renamed, and nothing else. *)
Theorem C136_folded : forall (T : Type) (OT : Ord T) (dbg : bool) (start eof : T) (rules : rulemap T) (g : grammar T),
  wf_rules rules -> grammar_new dbg start rules eof = Val g -> forall tl tc, makes LALR dbg g tl -> makes CLR dbg g tc -> term rules eof ->
  dbg = true \/ single_start rules start -> dbg = true \/ only_terminals tc -> hands_on tl -> grounded rules start eof tl -> exists h, folded h tc tl.
Proof. exact @lalr_folded. Qed.
Print Assumptions C136_folded.

(** Where a shift meets another action, it meets one in a state of Clr with the same items: putting states together makes no such conflict. *)
Theorem C136_shift : forall (T : Type) (OT : Ord T) (dbg : bool) (start eof : T) (rules : rulemap T) (g : grammar T),
  wf_rules rules -> grammar_new dbg start rules eof = Val g -> forall tl tc, makes LALR dbg g tl -> makes CLR dbg g tc -> term rules eof ->
  dbg = true \/ single_start rules start -> dbg = true \/ only_terminals tc ->
  forall m row x a n b, grounded rules start eof tl ->
  nth_error (t_actions tl) m = Some row -> bm_get x row = Some a -> inside (Shift n) a -> inside b a -> b <> Shift n ->
  exists q row' a' b' srow srow', nth_error (t_actions tc) q = Some row' /\ bm_get x row' = Some (Conflict a' b') /\
    nth_error (t_states tl) m = Some srow /\ nth_error (t_states tc) q = Some srow' /\ same_core srow srow'.
Proof. exact @lalr_shift. Qed.
Print Assumptions C136_shift.

(** So if Clr's table has no conflict, those in Lalr's are between reductions (accepting is that of the start symbol). *)
Theorem C136_reductions : forall (T : Type) (OT : Ord T) (dbg : bool) (start eof : T) (rules : rulemap T) (g : grammar T),
  wf_rules rules -> grammar_new dbg start rules eof = Val g -> forall tl tc, makes LALR dbg g tl -> makes CLR dbg g tc -> term rules eof ->
  dbg = true \/ single_start rules start -> dbg = true \/ only_terminals tc ->
  forall m row x a1 a2 b, grounded rules start eof tl -> conflicts (t_actions tc) = [] ->
  nth_error (t_actions tl) m = Some row -> bm_get x row = Some (Conflict a1 a2) -> inside b (Conflict a1 a2) -> b = Acc \/ exists A pr, b = Reduce A pr.
Proof. exact @lalr_reductions. Qed.
Print Assumptions C136_reductions.

(** S -> a A d | b B d | a B e | b A e; A -> c; B -> c *)
Example C136_folded_example : wf_rules mix1 /\ grammar_new true "Z" mix1 "$" = Val mix1_g /\ (forall k, makes k true mix1_g (mix1_t k)) /\ term mix1 "$" /\
  hands_on (mix1_t LALR) /\ grounded mix1 "Z" "$" (mix1_t LALR) /\
  (conflicts (t_actions (mix1_t CLR)) = [] /\ List.length (t_states (mix1_t CLR)) = 14 /\ List.length (t_states (mix1_t LALR)) = 13) /\
  exists row, nth_error (t_actions (mix1_t LALR)) 6 = Some row /\ bm_get "d" row = Some (Conflict (Reduce "A" (["c"], 0)) (Reduce "B" (["c"], 0))).
Proof. exact (conj mix1_wf (conj mix1_gE (conj mix1_makes (conj (proj1 mix_eof) (conj (proj1 mix1_looks) (conj (proj2 mix1_looks) (conj mix1_clr mix1_cell))))))). Qed.

(** E -> E + E | n *)
Example C136_shift_example : wf_rules amb1 /\ grammar_new true "Z" amb1 "$" = Val amb1_g /\ (forall k, makes k true amb1_g (amb1_t k)) /\ term amb1 "$" /\
  grounded amb1 "Z" "$" (amb1_t LALR) /\
  exists row, nth_error (t_actions (amb1_t LALR)) 4 = Some row /\ bm_get "+" row = Some (Conflict (Shift 3) (Reduce "E" (["E"; "+"; "E"], 0))).
Proof. exact (conj amb1_wf (conj amb1_gE (conj amb1_makes (conj (proj1 amb_eof) (conj (proj2 amb1_looks) amb1_cell))))). Qed.

(** The condition is needed: here a lookahead has not been handed out, and Lalr's table has a conflict that no putting together of states makes. *)
Example C136_loose : ~ (hands_on spur_t /\ grounded spur "Z" "$" spur_t) /\ LALR1 spur "Z" "$" /\ conflicts (t_actions (tab CLR true 100 spur_g)) = [] /\ conflicts (t_actions spur_t) <> [].
Proof. exact spur_conflict. Qed.
