(** Concrete cases for C137 *)
From Coq Require Import List Bool Arith Lia String.
From Verif Require Import BTree Model Strings Grammars Spec SpecP Interface Check Examples Refute Refute4 ValidSpec PassEx FewerEx.
Import ListNotations.
Local Open Scope string_scope.
Local Open Scope list_scope.
Local Notation length := List.length.

Lemma spur_wf : wf_rules spur. Proof. facts. Qed.
Lemma spur_gE : grammar_new true "Z" spur "$" = Val spur_g. Proof. check. Qed.
Lemma spur_eof : term spur "$". Proof. facts. Qed.

(** A -> a s . before c in state 20 of Lalr, whose items are this and D -> a s . *)
Lemma spur_item : item_look spur_t 20 "A" 0 ["a"; "s"] [] "c" /\ nth_error (t_states spur_t) 20 = Some
  [mkPos "A" (["a"; "s"], 0) 2 ["c"; "d"; "e"]; mkPos "D" (["a"; "s"], 0) 2 ["c"; "f"]].
Proof.
  assert (nth_error (t_states spur_t) 20 = Some [mkPos "A" (["a"; "s"], 0) 2 ["c"; "d"; "e"]; mkPos "D" (["a"; "s"], 0) 2 ["c"; "f"]]) as E by check.
  split; [|exact E]. eexists; eexists. split; [exact E|]. split; [left; reflexivity|]. repeat split; cbn; auto.
Qed.

Definition has_c (srow : state string) : bool := existsb (fun b => eqb (p_rule b) "A" && eqb (p_point b) 2 && existsb (eqb "c") (p_look b)) srow.
Definition has_B (srow : state string) : bool := existsb (eqb (mkPos "B" (["s"; "g"], 0) 1 ["$"])) srow.
Lemma more_sts (sts : list (state string)) : forallb (fun srow => implb (has_c srow) (has_B srow)) sts = true ->
  forall q srow l, nth_error sts q = Some srow -> In (mkPos "A" (["a"; "s"], 0) 2 l) srow -> In "c" l -> exists l', In (mkPos "B" (["s"; "g"], 0) 1 l') srow.
Proof.
  intros E q srow l Hq Hin Hc. rewrite forallb_forall in E. apply nth_error_In in Hq. specialize (E _ Hq).
  assert (has_c srow = true) as Hh.
  { apply existsb_exists. eexists. split; [exact Hin|]. cbn [p_rule p_point p_look]. rewrite !eqb_refl. cbn [andb]. apply existsb_exists. exists "c". split; auto. }
  rewrite Hh in E. apply existsb_exists in E as (b & Hb & Eb). apply eqb_eq in Eb. subst b. eauto.
Qed.

(** the one state of Clr with it has a further item *)
Lemma spur_more : forall q srow l, nth_error (t_states (tab CLR true 100 spur_g)) q = Some srow -> In (mkPos "A" (["a"; "s"], 0) 2 l) srow -> In "c" l ->
  exists l', In (mkPos "B" (["s"; "g"], 0) 1 l') srow.
Proof. apply more_sts. check. Qed.

Lemma spur_cell : conflicts (t_actions (tab CLR true 100 spur_g)) = [] /\ exists row, nth_error (t_actions spur_t) 20 = Some row /\
  bm_get "c" row = Some (Conflict (Reduce "A" (["a"; "s"], 0)) (Reduce "D" (["a"; "s"], 0))).
Proof. split; [check|]. eexists. split; check. Qed.

Lemma mix_cell : conflicts (t_actions (mix2_t CLR)) = [] /\ exists row, nth_error (t_actions (mix1_t LALR)) 6 = Some row /\
  bm_get "d" row = Some (Conflict (Reduce "A" (["c"], 0)) (Reduce "B" (["c"], 0))).
Proof. split; [check|]. eexists. split; check. Qed.
