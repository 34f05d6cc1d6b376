(** The reductors of the start rule are never consulted (C17, C52). *)
From Coq Require Import List Bool Arith Lia.
From Verif Require Import BTree Model Base Spec ActTab LR Interface Wrap Reduce Final.
Import ListNotations.

Section StartRed.
Context {T : Type} {OT : Ord T}.

Section Sim.
Context {M : Type}.
Variables (start : T) (acts : acttable T) (m1 m2 : reductmap T M).
Hypothesis Hagree : forall A, A <> start -> bm_get A m1 = bm_get A m2.
Hypothesis Hacts : forall q row x A pr, nth_error acts q = Some row -> bm_get x row = Some (Reduce A pr) -> A <> start.

Definition setr (d : dfa T M) : dfa T M :=
  mkDfa (d_buffer d) (d_states d) (d_items d) (d_table d) (d_top d) (d_finished d) m2 (d_eof d).
Definition setro (r : dfa T M * outcome T) : dfa T M * outcome T := (setr (fst r), snd r).

Lemma pop_setr d A pr : d_reductors d = m1 -> A <> start -> dfa_pop (setr d) A pr = rmap setr (dfa_pop d A pr).
Proof.
  intros Em HA. unfold dfa_pop. cbn [setr d_items d_reductors d_states]. rewrite Em, <- (Hagree _ HA).
  destruct (_ <? _); [reflexivity|]. destruct (bm_get A m1) as [fs|]; [|reflexivity]. cbn [expect bind].
  destruct (nth_error fs (snd pr)) as [f|]; [|reflexivity]. cbn [expect bind].
  destruct (nth_error (d_states d) (length (fst pr))) as [top|]; reflexivity.
Qed.

Lemma travel_setr fuel : forall d s, d_table d = acts -> d_reductors d = m1 -> travel fuel (setr d) s = rmap setro (travel fuel d s).
Proof.
  induction fuel as [|n IH]; intros d s Et Em; [reflexivity|]. cbn [travel]. cbn [setr d_table d_top].
  destruct (nth_error (d_table d) (d_top d)) as [row|] eqn:Er; [|reflexivity].
  destruct (bm_get s row) as [[q|q|A pr| |a b]|] eqn:Ea; try reflexivity.
  - unfold dfa_shift. cbn [setr d_buffer]. destruct (d_buffer d); reflexivity.
  - rewrite pop_setr; auto; [|rewrite Et in Er; eauto]. destruct (dfa_pop d A pr) as [d'| |] eqn:Ep; [|reflexivity..]. cbn [rmap bind].
    assert (d_table d' = acts /\ d_reductors d' = m1) as [E1 E2].
    { unfold dfa_pop in Ep. destruct (_ <? _); [discriminate|]. apply bind_val in Ep as (fs & _ & Ep). apply bind_val in Ep as (f & _ & Ep). apply bind_val in Ep as (tp & _ & Ep). injection Ep as <-. auto. }
    apply IH; auto.
Qed.

Lemma travel_keep fuel : forall (d : dfa T M) s d' o, travel fuel d s = Val (d', o) -> d_table d' = d_table d /\ d_reductors d' = d_reductors d.
Proof.
  induction fuel as [|n IH]; intros d s d' o E; [discriminate|]. cbn [travel] in E.
  destruct (nth_error (d_table d) (d_top d)) as [row|]; [|injection E as <- _; auto].
  destruct (bm_get s row) as [[q|q|A pr| |a b]|]; try (injection E as <- _; auto).
  - unfold dfa_shift in E. destruct (d_buffer d); injection E as <- _; auto.
  - apply bind_val in E as (d1 & E1 & E2). apply IH in E2 as [-> ->].
    unfold dfa_pop in E1. destruct (_ <? _); [discriminate|]. apply bind_val in E1 as (fs & _ & E1). apply bind_val in E1 as (f & _ & E1). apply bind_val in E1 as (tp & _ & E1). injection E1 as <-. auto.
Qed.

Lemma start_setr fuel : forall d, d_table d = acts -> d_reductors d = m1 -> dfa_start fuel (setr d) = rmap setro (dfa_start fuel d).
Proof.
  induction fuel as [|n IH]; intros d Et Em; [reflexivity|]. cbn [dfa_start]. cbn [setr d_finished].
  destruct (d_finished d); [reflexivity|]. change (lookahead (setr d)) with (lookahead d). fold (setr d). rewrite travel_setr; auto.
  destruct (travel n d (lookahead d)) as [[d' o]| |] eqn:E; [|reflexivity..]. cbn [rmap setro fst snd bind].
  apply travel_keep in E as [E1 E2]. destruct o; [|reflexivity]. apply IH; congruence.
Qed.
End Sim.

Variables (dbg : bool) (start eof : T) (rules : rulemap T) (g : grammar T).
Hypothesis W : wf_rules rules.
Hypothesis Hg : grammar_new dbg start rules eof = Val g.

Lemma start_unused k t : makes k dbg g t -> forall M (m1 m2 : reductmap T M), (forall A, A <> start -> bm_get A m1 = bm_get A m2) ->
  forall fuel input, parser_parse fuel t input m1 = parser_parse fuel t input m2.
Proof.
  intros Hm M m1 m2 Ha fuel input. destruct (Wp0 _ _ _ _ _ W Hg) as (p0 & Hp0 & _).
  destruct (makes_lr0 _ _ _ _ _ W Hg _ _ _ Hm Hp0) as (sfk & L & _).
  unfold parser_parse, parser_dfa. destruct (expect P_index _) as [e| |]; [|reflexivity..]. cbn [bind].
  change (dfa_new input (t_actions t) m2 e) with (setr m2 (dfa_new input (t_actions t) m1 e)).
  rewrite (start_setr start (t_actions t) m1 m2); auto.
  - destruct (dfa_start fuel (dfa_new input (t_actions t) m1 e)) as [[d' o]| |]; reflexivity.
  - intros q row x A pr E1 E2. assert (entry (t_actions t) q x = Some (Reduce A pr)) as E by (unfold entry; now rewrite E1).
    apply (entry_reduce _ _ _ _ _ _ _ _ L) in E as [E _]. exact E.
Qed.
End StartRed.
