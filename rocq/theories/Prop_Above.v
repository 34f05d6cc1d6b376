(** C137: where Lalr's lookaheads come from, whatever it does *)
From Coq Require Import List Bool Arith String.
From Verif Require Import BTree Model Spec Interface ValidSpec Examples Refute Refute4 PassEx FewerSpec FewerEx FoldEx Above AboveEx.
Import ListNotations.
Local Open Scope string_scope.
Local Open Scope list_scope.

(** A lookahead of an item in a state of Lalr is one of the same item in a state of Clr that has all the items of Lalr's state. Nothing is
    supposed of how the lookaheads came about. *)
Theorem C137_within : forall (T : Type) (OT : Ord T) (dbg : bool) (start eof : T) (rules : rulemap T) (g : grammar T),
  wf_rules rules -> grammar_new dbg start rules eof = Val g -> forall tl tc, makes LALR dbg g tl -> makes CLR dbg g tc -> term rules eof ->
  dbg = true \/ only_terminals tc -> forall m srow A i u v x, nth_error (t_states tl) m = Some srow -> item_look tl m A i u v x ->
  exists q srow', nth_error (t_states tc) q = Some srow' /\ (forall B pr p, (exists l, In (mkPos B pr p l) srow) -> exists l, In (mkPos B pr p l) srow') /\
    item_look tc q A i u v x.
Proof. exact @lalr_within. Qed.
Print Assumptions C137_within.

(** So where a shift meets another action, Clr has a conflict in the same column of a state with at least those items, *)
Theorem C137_shift : forall (T : Type) (OT : Ord T) (dbg : bool) (start eof : T) (rules : rulemap T) (g : grammar T),
  wf_rules rules -> grammar_new dbg start rules eof = Val g -> forall tl tc, makes LALR dbg g tl -> makes CLR dbg g tc -> term rules eof ->
  dbg = true \/ only_terminals tc ->
  forall m row x a n b, nth_error (t_actions tl) m = Some row -> bm_get x row = Some a -> inside (Shift n) a -> inside b a -> b <> Shift n ->
  exists q row' a' b' srow srow', nth_error (t_actions tc) q = Some row' /\ bm_get x row' = Some (Conflict a' b') /\
    nth_error (t_states tl) m = Some srow /\ nth_error (t_states tc) q = Some srow' /\
    forall B pr p, (exists l, In (mkPos B pr p l) srow) -> exists l, In (mkPos B pr p l) srow'.
Proof. exact @above_shift. Qed.
Print Assumptions C137_shift.

(** and if Clr finds no conflict, those Lalr finds are between reductions, also where its lookaheads are wrong. *)
Theorem C137_reductions : forall (T : Type) (OT : Ord T) (dbg : bool) (start eof : T) (rules : rulemap T) (g : grammar T),
  wf_rules rules -> grammar_new dbg start rules eof = Val g -> forall tl tc, makes LALR dbg g tl -> makes CLR dbg g tc -> term rules eof ->
  dbg = true \/ only_terminals tc -> forall m row x a1 a2 b, conflicts (t_actions tc) = [] ->
  nth_error (t_actions tl) m = Some row -> bm_get x row = Some (Conflict a1 a2) -> inside b (Conflict a1 a2) -> b = Acc \/ exists A pr, b = Reduce A pr.
Proof. exact @above_reductions. Qed.
Print Assumptions C137_reductions.

(** If Clr finds no conflict in a grammar, the conflicts Lalr finds in one with fewer alternatives (C135) are between reductions. *)
Theorem C137_fewer : forall (T : Type) (OT : Ord T) (dbg1 dbg2 : bool) (start eof : T) (r1 r2 : rulemap T) (g1 g2 : grammar T),
  wf_rules r1 -> wf_rules r2 -> grammar_new dbg1 start r1 eof = Val g1 -> grammar_new dbg2 start r2 eof = Val g2 ->
  term r1 eof -> term r2 eof -> fewer r1 r2 start ->
  forall tl tc t2, makes LALR dbg1 g1 tl -> makes CLR dbg1 g1 tc -> makes CLR dbg2 g2 t2 -> dbg1 = true \/ only_terminals tc -> conflicts (t_actions t2) = [] ->
  forall m row x a1 a2 b, nth_error (t_actions tl) m = Some row -> bm_get x row = Some (Conflict a1 a2) -> inside b (Conflict a1 a2) -> b = Acc \/ exists A pr, b = Reduce A pr.
Proof. exact @fewer_lalr. Qed.
Print Assumptions C137_fewer.

(** The grammar of C136_loose: the lookahead c comes to A -> a s . from a state of Clr with one item more, and no other has it. *)
Example C137_within_example : wf_rules spur /\ grammar_new true "Z" spur "$" = Val spur_g /\ (forall k, makes k true spur_g (tab k true 100 spur_g)) /\ term spur "$" /\
  (item_look spur_t 20 "A" 0 ["a"; "s"] [] "c" /\ nth_error (t_states spur_t) 20 = Some
    [mkPos "A" (["a"; "s"], 0) 2 ["c"; "d"; "e"]; mkPos "D" (["a"; "s"], 0) 2 ["c"; "f"]]) /\
  forall q srow l, nth_error (t_states (tab CLR true 100 spur_g)) q = Some srow -> In (mkPos "A" (["a"; "s"], 0) 2 l) srow -> In "c" l ->
    exists l', In (mkPos "B" (["s"; "g"], 0) 1 l') srow.
Proof. exact (conj spur_wf (conj spur_gE (conj spur_makes (conj spur_eof (conj spur_item spur_more))))). Qed.

(** E -> E + E | n *)
Example C137_shift_example : wf_rules amb1 /\ grammar_new true "Z" amb1 "$" = Val amb1_g /\ (forall k, makes k true amb1_g (amb1_t k)) /\ term amb1 "$" /\
  exists row, nth_error (t_actions (amb1_t LALR)) 4 = Some row /\ bm_get "+" row = Some (Conflict (Shift 3) (Reduce "E" (["E"; "+"; "E"], 0))).
Proof. exact (conj amb1_wf (conj amb1_gE (conj amb1_makes (conj (proj1 amb_eof) amb1_cell)))). Qed.

(** the conflict of C136_loose *)
Example C137_reductions_example : conflicts (t_actions (tab CLR true 100 spur_g)) = [] /\ exists row, nth_error (t_actions spur_t) 20 = Some row /\
  bm_get "c" row = Some (Conflict (Reduce "A" (["a"; "s"], 0)) (Reduce "D" (["a"; "s"], 0))).
Proof. exact spur_cell. Qed.

(** the grammars of C135_lalr_refused *)
Example C137_fewer_example : wf_rules mix1 /\ wf_rules mix2 /\ grammar_new true "Z" mix1 "$" = Val mix1_g /\ grammar_new true "Z" mix2 "$" = Val mix2_g /\
  term mix1 "$" /\ term mix2 "$" /\ fewer mix1 mix2 "Z" /\ (forall k, makes k true mix1_g (mix1_t k)) /\ (forall k, makes k true mix2_g (mix2_t k)) /\
  conflicts (t_actions (mix2_t CLR)) = [] /\ exists row, nth_error (t_actions (mix1_t LALR)) 6 = Some row /\
    bm_get "d" row = Some (Conflict (Reduce "A" (["c"], 0)) (Reduce "B" (["c"], 0))).
Proof. exact (conj mix1_wf (conj mix2_wf (conj mix1_gE (conj mix2_gE (conj (proj1 mix_eof) (conj (proj2 mix_eof) (conj mix_fewer (conj mix1_makes (conj mix2_makes mix_cell))))))))). Qed.
