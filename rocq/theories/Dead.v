(** Clr's parsers do not see rules out of reach (C122). *)
From Coq Require Import List Bool Arith Lia.
From Verif Require Import BTree Model Base Spec SpecP Interface LR Wrap Export LR1Spec ValidSpec Handle HandleF Dilemma Valid Textbook Final.
Import ListNotations.

Lemma reaches_eof {T} {OT : Ord T} {M} dbg start eof (rules : rulemap T) g (W : wf_rules rules) (Hg : grammar_new dbg start rules eof = Val g)
  (maps : reductmap T M) k t (Hm : makes k dbg g t) input d : reaches t input maps d -> d_eof d = eof.
Proof.
  induction 1 as [d E|d d' H IH [E1 (fuel & E2)]].
  - rewrite (makes_dfa _ _ _ _ _ W Hg maps k t Hm) in E. injection E as <-. reflexivity.
  - apply travel_eof in E2. congruence.
Qed.

Lemma prod_at_fun' {T} {OT : Ord T} (rules : rulemap T) A i r1 r2 : prod_at rules A i r1 -> prod_at rules A i r2 -> r1 = r2.
Proof. intros (r & k & E1 & E2) (r' & k' & E1' & E2'). congruence. Qed.

Section Lockstep.
Context {T : Type} {OT : Ord T} {M : Type}.
Variables (dbg1 dbg2 : bool) (start eof : T) (r1 r2 : rulemap T) (g1 g2 : grammar T).
Hypothesis W1 : wf_rules r1.
Hypothesis W2 : wf_rules r2.
Hypothesis G1 : grammar_new dbg1 start r1 eof = Val g1.
Hypothesis G2 : grammar_new dbg2 start r2 eof = Val g2.
Variables (k1 k2 : method) (t1 t2 : tabler T).
Hypothesis M1 : makes k1 dbg1 g1 t1.
Hypothesis M2 : makes k2 dbg2 g2 t2.
Hypothesis K1 : k1 <> LALR.
Hypothesis K2 : k2 <> LALR.
Hypothesis E1 : term r1 eof.
Hypothesis E2 : term r2 eof.
Hypothesis S1 : dbg1 = true \/ single_start r1 start.
Hypothesis S2 : dbg2 = true \/ single_start r2 start.
Hypothesis O1 : dbg1 = true \/ only_terminals t1.
Hypothesis O2 : dbg2 = true \/ only_terminals t2.
Hypothesis P1 : productive r1.
Hypothesis P2 : productive r2.
Hypothesis HC : forall pre A i u x, completes k1 r1 start eof pre A i u x <-> completes k2 r2 start eof pre A i u x.
Hypothesis HS : forall pre B j u v, valid_after r1 start pre B j u v <-> valid_after r2 start pre B j u v.
Variable maps : reductmap T M.
Hypothesis C1 : covers r1 maps.
Hypothesis C2 : covers r2 maps.

Lemma calls_same pre x s : calls_for k1 r1 start eof pre x s <-> calls_for k2 r2 start eof pre x s.
Proof.
  split; intros [B j u v V|A i u N V|i u V].
  - apply HS in V. econstructor; eauto.
  - apply HC in V. econstructor; eauto.
  - apply HC in V. econstructor; eauto.
  - apply HS in V. econstructor; eauto.
  - apply HC in V. econstructor; eauto.
  - apply HC in V. econstructor; eauto.
Qed.

Lemma completes_prod k r pre A i u x : completes k r start eof pre A i u x -> prod_at r A i u.
Proof. destruct k; cbn; [intros [[H _] _]|intros [H _]|intros (pre' & _ & [H _])]; now rewrite app_nil_r in H. Qed.

Definition twin (d1 d2 : dfa T M) : Prop := d_items d1 = d_items d2 /\ d_finished d1 = d_finished d2 /\ (d_finished d1 = false -> d_buffer d1 = d_buffer d2).

Lemma twin_step input d1 d2 : Forall (term r1) (map tk_ty input) -> Forall (term r2) (map tk_ty input) ->
  reaches t1 input maps d1 -> reaches t2 input maps d2 -> twin d1 d2 -> d_finished d1 = false ->
  exists d1' d2' o1 o2, stepsto d1 (d1', o1) /\ stepsto d2 (d2', o2) /\
    match o1, o2 with Ok, Ok => twin d1' d2' | Err e, Err e' => same_error e e' | _, _ => False end.
Proof.
  intros I1 I2 R1 R2 (Ti & Tf & Tb) F1. assert (d_finished d2 = false) as F2 by congruence. specialize (Tb F1).
  assert (L : lookahead d1 = lookahead d2).
  { unfold lookahead. rewrite Tb. destruct (d_buffer d2); auto.
    rewrite (reaches_eof _ _ _ _ _ W1 G1 maps k1 t1 M1 _ _ R1). now rewrite (reaches_eof _ _ _ _ _ W2 G2 maps k2 t2 M2 _ _ R2). }
  destruct (driver_textbook _ _ _ _ _ W1 G1 _ _ M1 (or_introl K1) E1 S1 O1 P1 _ maps _ _ C1 I1 R1 F1 _ _ eq_refl eq_refl) as (f1 & d1' & o1 & X1 & Y1).
  destruct (driver_textbook _ _ _ _ _ W2 G2 _ _ M2 (or_introl K2) E2 S2 O2 P2 _ maps _ _ C2 I2 R2 F2 _ _ eq_refl eq_refl) as (f2 & d2' & o2 & X2 & Y2).
  exists d1', d2', o1, o2. split; [now exists f1|]. split; [now exists f2|]. rewrite <- L, <- Ti in Y2.
  set (pre := rev (map tk_ty (d_items d1))) in *. set (x := lookahead d1) in *. clearbody pre x.
  destruct Y1 as [[(s & s' & A1 & A2 & N) (a & b & ->)]|[[N (es & -> & Z1 & Z2)]|(s & A1 & U & D1)]];
  destruct Y2 as [[(z & z' & B1 & B2 & N') (a' & b' & ->)]|[[N' (es' & -> & Z1' & Z2')]|(z & B1 & U' & D2)]]; cbn; auto.
  - exfalso. apply calls_same in A1. eapply N'; eauto.
  - exfalso. apply calls_same, U' in A1. apply calls_same, U' in A2. congruence.
  - exfalso. apply calls_same in B1. eapply N; eauto.
  - f_equal. apply sorted_ext; auto. intros y. rewrite Z2, Z2'. split; intros (s & H); exists s; now apply calls_same.
  - exfalso. apply calls_same in B1. eapply N; eauto.
  - exfalso. apply calls_same, U in B1. apply calls_same, U in B2. congruence.
  - exfalso. apply calls_same in A1. eapply N'; eauto.
  - apply calls_same, U in B1 as ->. destruct s as [|A i|]; cbn in D1, D2.
    + rewrite Tb in D1. destruct (d_buffer d2) as [|tok rest]; [subst; reflexivity|].
      destruct D1 as (-> & b1 & i1 & f1'). destruct D2 as (-> & b2 & i2 & f2'). split; [congruence|]. split; congruence.
    + destruct D1 as (-> & b1 & f1' & rhs & fs & f & Q1 & Q2 & Q3 & i1). destruct D2 as (-> & b2 & f2' & rhs' & fs' & f' & Q1' & Q2' & Q3' & i2).
      assert (rhs = rhs') as <-.
      { inversion A1 as [|A0 i0 u N V|]; subst. pose proof (completes_prod _ _ _ _ _ _ _ V) as V1. apply HC, completes_prod in V.
        transitivity u; [|symmetry]; eapply prod_at_fun'; eauto. }
      assert (fs = fs') as <- by congruence. assert (f = f') as <- by congruence.
      split; [congruence|]. split; congruence.
    + destruct D1 as (f1' & i1 & ->). destruct D2 as (f2' & i2 & ->). rewrite Tb. destruct (d_buffer d2); [|reflexivity].
      split; [congruence|]. split; [congruence|]. intros. congruence.
Qed.
Lemma twin_runs input d1 x : Forall (term r1) (map tk_ty input) -> Forall (term r2) (map tk_ty input) -> runs d1 x ->
  forall d2, reaches t1 input maps d1 -> reaches t2 input maps d2 -> twin d1 d2 ->
  exists y, runs d2 y /\ match snd x, snd y with Ok, Ok => d_items (fst x) = d_items (fst y) | Err e, Err e' => same_error e e' | _, _ => False end.
Proof.
  intros I1 I2 R. revert d1 x R.
  refine (runs_ind (fun d1 x => forall d2, reaches t1 input maps d1 -> reaches t2 input maps d2 -> twin d1 d2 ->
    exists y, runs d2 y /\ match snd x, snd y with Ok, Ok => d_items (fst x) = d_items (fst y) | Err e, Err e' => same_error e e' | _, _ => False end) _ _ _).
  1: intros d F d2 R1 R2 Tw. 2: intros d d' e F S d2 R1 R2 Tw. 3: intros d d' r F S R IH d2 R1 R2 Tw.
  - exists (d2, Ok). destruct Tw as (Ti & Tf & _). split; [|auto]. exists 1. simpl. now rewrite <- Tf, F.
  - destruct (twin_step _ _ _ I1 I2 R1 R2 Tw F) as (a & b & o1 & o2 & X1 & X2 & H).
    pose proof (stepsto_fun _ _ _ S X1) as [= <- <-]. destruct o2 as [|e']; [easy|].
    exists (b, Err e'). split; auto. apply runs_err; auto. destruct Tw as (_ & Tf & _). congruence.
  - destruct (twin_step _ _ _ I1 I2 R1 R2 Tw F) as (a & b & o1 & o2 & X1 & X2 & H).
    pose proof (stepsto_fun _ _ _ S X1) as [= <- <-]. destruct o2 as [|e']; [|easy].
    assert (d_finished d2 = false) as F2 by (destruct Tw as (_ & Tf & _); congruence).
    destruct (IH b) as (y & Y & HY); auto.
    + destruct S as (f & S). eapply reaches_round; [exact R1|]. split; eauto.
    + destruct X2 as (f & X2). eapply reaches_round; [exact R2|]. split; eauto.
    + exists y. split; auto. eapply runs_step; eauto.
Qed.

Lemma twin_parses input r : Forall (term r1) (map tk_ty input) -> Forall (term r2) (map tk_ty input) ->
  parses t1 input maps r -> exists r', parses t2 input maps r' /\ same_outcome r r'.
Proof.
  intros I1 I2 Hp. apply (parses_runs _ _ _ _ _ W1 G1 maps _ _ M1) in Hp as (d' & o & R & ->).
  destruct (twin_runs input _ _ I1 I2 R (dfa_new input (t_actions t2) maps eof)) as ([d2 o2] & R2 & H).
  - constructor. apply (makes_dfa _ _ _ _ _ W1 G1 maps _ _ M1).
  - constructor. apply (makes_dfa _ _ _ _ _ W2 G2 maps _ _ M2).
  - repeat split.
  - eexists. split; [apply (parses_runs _ _ _ _ _ W2 G2 maps _ _ M2); exists d2, o2; split; [exact R2|reflexivity]|].
    cbn [fst snd] in H. destruct o, o2; cbn; try easy. rewrite H. now destruct (d_items d2).
Qed.
End Lockstep.

Section Same.
Context {T : Type} {OT : Ord T}.
Variables (start : T).

Lemma same_derives r1 r2 : same_from start r1 r2 -> forall w, derives r1 [start] w -> derives r2 [start] w.
Proof.
  intros H. assert (forall u w, derives r1 u w -> derives r1 [start] u -> derives r2 [start] u -> derives r2 [start] w) as G.
  { induction 1 as [|u v w R D IH]; auto. intros D1 D2. destruct R as [a A b i rhs P]. apply IH.
    - eapply derives_trans; [exact D1|]. econstructor; [econstructor; eauto|constructor].
    - eapply derives_trans; [exact D2|]. econstructor; [econstructor|constructor]. apply (proj2 (H _ _ _ D1)); eauto. }
  intros w D. eapply G; eauto; constructor.
Qed.

Lemma same_derives' r1 r2 : same_from start r1 r2 -> forall w, derives r2 [start] w -> derives r1 [start] w.
Proof.
  intros H. assert (forall u w, derives r2 u w -> derives r1 [start] u -> derives r1 [start] w) as G.
  { induction 1 as [|u v w R D IH]; auto. intros D1. destruct R as [a A b i rhs P]. apply IH.
    eapply derives_trans; [exact D1|]. econstructor; [econstructor|constructor]. apply (proj2 (H _ _ _ D1)); eauto. }
  intros w D. eapply G; eauto; constructor.
Qed.

Lemma same_sym r1 r2 : same_from start r1 r2 -> same_from start r2 r1.
Proof. intros H u A v D. apply (same_derives' _ _ H) in D. apply H in D as [D1 D2]. split; [now symmetry|]. intros. now symmetry. Qed.

Lemma same_term r1 r2 : same_from start r1 r2 -> forall a w, derives r1 [start] (a ++ w) -> Forall (term r1) w -> Forall (term r2) w.
Proof.
  intros H a w. revert a. induction w as [|x w IH]; intros a D F; constructor; inversion F; subst.
  - intros N. apply H2. apply (proj1 (H _ _ _ D)), N.
  - apply (IH (a ++ [x])); auto. now rewrite <- app_assoc.
Qed.

Lemma same_rms r1 r2 : same_from start r1 r2 -> forall w, rms r1 [start] w -> rms r2 [start] w.
Proof.
  intros H w. induction 1 as [|v w R IH Hm]; [constructor|]. econstructor; [exact IH|]. destruct Hm as [a A i rhs w P F]. apply rms_derives in R.
  apply (rm_intro _ a A i rhs w). { now apply (proj2 (H _ _ _ R)). } apply (same_term _ _ H (a ++ [A])); auto. now rewrite <- app_assoc.
Qed.

Lemma same_valid r1 r2 : same_from start r1 r2 -> forall pre A i u v, valid_after r1 start pre A i u v -> valid_after r2 start pre A i u v.
Proof.
  intros H pre A i u v (P & a & w & R & F & ->). pose proof (rms_derives _ _ _ R) as D. split. { now apply (proj2 (H _ _ _ D)). }
  exists a, w. split; [now apply (same_rms _ _ H)|]. split; auto. apply (same_term _ _ H (a ++ [A])); auto. now rewrite <- app_assoc.
Qed.

Lemma same_look r1 r2 eof : same_from start r1 r2 -> forall pre A i u v x, valid_look r1 start eof pre A i u v x -> valid_look r2 start eof pre A i u v x.
Proof.
  intros H pre A i u v x (P & a & w & R & F & -> & N). pose proof (rms_derives _ _ _ R) as D. split. { now apply (proj2 (H _ _ _ D)). }
  exists a, w. split; [now apply (same_rms _ _ H)|]. split; auto. apply (same_term _ _ H (a ++ [A])); auto. now rewrite <- app_assoc.
Qed.

Lemma same_LR1 r1 r2 eof : same_from start r1 r2 -> LR1 r1 start eof -> LR1 r2 start eof.
Proof.
  intros H0 L a A i rhs w b B j rhs' x y R1 P1 F1 R2 P2 F2 E F3 N. pose proof (same_sym _ _ H0) as H.
  pose proof (rms_derives _ _ _ R1) as D1. pose proof (rms_derives _ _ _ R2) as D2.
  apply (L a A i rhs w b B j rhs' x y); auto.
  - now apply (same_rms _ _ H).
  - now apply (proj2 (H _ _ _ D1)).
  - apply (same_term _ _ H (a ++ [A])); auto. now rewrite <- app_assoc.
  - now apply (same_rms _ _ H).
  - now apply (proj2 (H _ _ _ D2)).
  - apply (same_term _ _ H (b ++ [B])); auto. now rewrite <- app_assoc.
  - apply (same_term _ _ H (a ++ rhs)); auto. rewrite <- app_assoc, <- E. eapply derives_trans; [exact D2|].
    econstructor; [econstructor; eauto|constructor].
Qed.
End Same.

(** ** Clr *)
Section Clr.
Context {T : Type} {OT : Ord T}.

Lemma clr_dead (dbg dbg' : bool) start eof (r1 r2 : rulemap T) g1 g2 t1 t2 : wf_rules r1 -> wf_rules r2 -> same_from start r1 r2 ->
  grammar_new dbg start r1 eof = Val g1 -> grammar_new dbg' start r2 eof = Val g2 -> makes CLR dbg g1 t1 -> makes CLR dbg' g2 t2 ->
  term r1 eof -> term r2 eof -> dbg = true \/ single_start r1 start -> dbg' = true \/ single_start r2 start ->
  dbg = true \/ only_terminals t1 -> dbg' = true \/ only_terminals t2 -> productive r1 -> productive r2 ->
  (conflicts (t_actions t1) = [] <-> conflicts (t_actions t2) = []) /\
  forall M (maps : reductmap T M) input, covers r1 maps -> covers r2 maps -> Forall (term r1) (map tk_ty input) -> Forall (term r2) (map tk_ty input) ->
  forall r, parses t1 input maps r -> exists r', parses t2 input maps r' /\ same_outcome r r'.
Proof.
  intros W1 W2 H G1 G2 M1 M2 E1 E2 S1 S2 O1 O2 P1 P2. pose proof (same_sym _ _ _ H) as H'. split.
  - destruct (clr_LR1 _ _ _ _ _ W1 G1 _ M1 E1 S1) as [A1 B1]. destruct (clr_LR1 _ _ _ _ _ W2 G2 _ M2 E2 S2) as [A2 B2]. split; intros C.
    + apply B2; auto. apply (same_LR1 _ _ _ _ H). auto.
    + apply B1; auto. apply (same_LR1 _ _ _ _ H'). auto.
  - intros M maps input C1 C2 I1 I2 r. apply (twin_parses dbg dbg' start eof r1 r2 g1 g2 W1 W2 G1 G2 CLR CLR t1 t2); auto; try discriminate.
    + intros. split; apply same_look; auto.
    + intros. split; apply same_valid; auto.
Qed.
End Clr.
