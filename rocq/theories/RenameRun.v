(** Parsers of renamed grammars answer every input alike, conflicts or not (C131). *)
From Coq Require Import List Bool Arith Lia.
From Verif Require Import BTree Model Base Spec SpecP GrammarP Interface LR Wrap Final Export LR1Spec ValidSpec Handle HandleF Dilemma Valid Textbook Dead Pass RenameSpec Rename.
Import ListNotations.

Section RenameRun.
Context {T1 T2 : Type} {O1 : Ord T1} {O2 : Ord T2}.
Variables (f : T1 -> T2) (m : T1 -> nat -> nat) (rules1 : rulemap T1) (rules2 : rulemap T2).
Hypothesis R : renames f m rules1 rules2.
Variables (start eof : T1).

Local Notation minj := (map_inj f m rules1 rules2 R).
Local Notation finj := (rn_inj _ _ _ _ R).

Lemma look_fwd pre A i u v x : valid_look rules1 start eof pre A i u v x -> valid_look rules2 (f start) (f eof) (map f pre) (f A) (m A i) (map f u) (map f v) (f x).
Proof.
  intros (P & a & w & H & F & -> & <-). split; [rewrite <- map_app; now apply (rn_prod _ _ _ _ R)|].
  exists (map f a), (map f w). apply (rms_fwd _ _ _ _ R) in H. rewrite map_app in H. split; auto. split; [now apply (terms_f _ _ _ _ R)|]. split; [apply map_app|apply next_f].
Qed.
Lemma look_back pre A j u' v' y : valid_look rules2 (f start) (f eof) pre A j u' v' y -> exists pre1 A1 i u v x,
  pre = map f pre1 /\ A = f A1 /\ j = m A1 i /\ u' = map f u /\ v' = map f v /\ y = f x /\ valid_look rules1 start eof pre1 A1 i u v x.
Proof.
  intros (P & a & w & H & F & -> & <-). apply (rms_back _ _ _ _ R [start]) in H as (z & E & H). symmetry in E.
  apply map_app_inv in E as (a1 & b1 & -> & -> & E). symmetry in E. apply map_cons_inv in E as (A1 & w1 & -> & -> & ->).
  destruct (rn_prod_back _ _ _ _ R _ _ _ P) as (i & rhs & -> & E & Hp). symmetry in E. apply map_app_inv in E as (u & v & -> & -> & ->).
  exists (a1 ++ u), A1, i, u, v, (next eof w1). split; [now rewrite map_app|]. do 4 (split; [auto; fail|]). split; [apply next_f|].
  split; [exact Hp|]. exists a1, w1. split; auto. split; [now apply (terms_f _ _ _ _ R)|auto].
Qed.
Lemma valid_iff pre A i u v rhs : prod_at rules1 A i rhs -> (valid_after rules1 start pre A i u v <-> valid_after rules2 (f start) (map f pre) (f A) (m A i) (map f u) (map f v)).
Proof.
  intros HP. split; [apply (valid_fwd _ _ _ _ R)|]. intros V. apply (valid_back _ _ _ _ R) in V as (p1 & A1 & i1 & u1 & v1 & E1 & E2 & E3 & E4 & E5 & V).
  apply minj in E1, E4, E5. apply finj in E2. subst. assert (i = i1) as ->; auto. eapply (rn_index _ _ _ _ R); eauto. apply V.
Qed.
Lemma items_fwd pre pre' : same_items rules1 start pre pre' <-> same_items rules2 (f start) (map f pre) (map f pre').
Proof.
  split; intros H.
  - assert (G : forall p p', same_items rules1 start p p' -> forall A i u v, valid_after rules2 (f start) (map f p) A i u v -> valid_after rules2 (f start) (map f p') A i u v).
    { intros p p' S A i u v V. apply (valid_back _ _ _ _ R) in V as (p1 & A1 & i1 & u1 & v1 & E1 & -> & -> & -> & -> & V). apply minj in E1 as <-.
      apply (valid_fwd _ _ _ _ R), S, V. }
    intros A i u v. split; apply G; auto. intros A' i' u' v'. symmetry. apply H.
  - intros A i u v. split; intros V; pose proof (proj1 V) as P; apply (valid_iff _ _ _ _ _ _ P), H, (valid_iff _ _ _ _ _ _ P), V.
Qed.

Definition rewish (s : wish (T := T1)) : wish (T := T2) := match s with TShift => TShift | TReduce A i => TReduce (f A) (m A i) | TAccept => TAccept end.

Lemma completes_fwd k pre A i u x : completes k rules1 start eof pre A i u x -> completes k rules2 (f start) (f eof) (map f pre) (f A) (m A i) (map f u) (f x).
Proof.
  destruct k; cbn.
  - intros [V F]. split; [exact (valid_fwd _ _ _ _ R _ _ _ _ _ _ V)|now apply (follow_fwd _ _ _ _ R)].
  - apply look_fwd.
  - intros (pre' & S & V). exists (map f pre'). split; [now apply items_fwd|exact (look_fwd _ _ _ _ _ _ V)].
Qed.
Lemma completes_back k pre A' j u' y : completes k rules2 (f start) (f eof) (map f pre) A' j u' y -> exists A i u x,
  A' = f A /\ j = m A i /\ u' = map f u /\ y = f x /\ completes k rules1 start eof pre A i u x.
Proof.
  destruct k; cbn.
  - intros [V F]. apply (valid_back _ _ _ _ R) in V as (p1 & A1 & i1 & u1 & v1 & E1 & -> & -> & -> & E5 & V). apply minj in E1 as <-. apply map_nil_inv in E5 as ->.
    apply (follow_back _ _ _ _ R) in F as (X1 & t1 & E1 & -> & F). apply finj in E1 as <-. exists A1, i1, u1, t1. auto 8.
  - intros V. apply look_back in V as (p1 & A1 & i1 & u1 & v1 & x & E1 & -> & -> & -> & E5 & -> & V). apply minj in E1 as <-. apply map_nil_inv in E5 as ->. exists A1, i1, u1, x. auto 8.
  - intros (pre' & S & V). apply look_back in V as (p1 & A1 & i1 & u1 & v1 & x & -> & -> & -> & -> & E5 & -> & V). apply map_nil_inv in E5 as ->. apply items_fwd in S.
    exists A1, i1, u1, x. repeat split; auto. exists p1. auto.
Qed.

Lemma calls_fwd k pre x s : calls_for k rules1 start eof pre x s -> calls_for k rules2 (f start) (f eof) (map f pre) (f x) (rewish s).
Proof.
  intros [B j u v V|A i u N V|i u V]; cbn.
  - apply (valid_fwd _ _ _ _ R) in V. econstructor; exact V.
  - apply completes_fwd in V. econstructor; eauto. intros E. apply finj in E. auto.
  - apply completes_fwd in V. econstructor; eauto.
Qed.
Lemma calls_back k pre y s' : calls_for k rules2 (f start) (f eof) (map f pre) y s' -> exists x s, y = f x /\ s' = rewish s /\ calls_for k rules1 start eof pre x s.
Proof.
  intros [B j u v V|A i u N V|i u V].
  - apply (valid_back _ _ _ _ R) in V as (p1 & A1 & i1 & u1 & v1 & E1 & -> & -> & -> & E5 & V). apply minj in E1 as <-. symmetry in E5. apply map_cons_inv in E5 as (x & v2 & -> & -> & ->).
    exists x, TShift. split; auto. split; auto. econstructor; eauto.
  - apply completes_back in V as (A1 & i1 & u1 & x & -> & -> & -> & -> & V). exists x, (TReduce A1 i1). split; auto. split; auto. econstructor; eauto. congruence.
  - apply completes_back in V as (A1 & i1 & u1 & x & E & -> & -> & -> & V). apply finj in E as <-. exists x, TAccept. split; auto. split; auto. econstructor; eauto.
Qed.
Lemma calls_at k pre x s' : calls_for k rules2 (f start) (f eof) (map f pre) (f x) s' -> exists s, s' = rewish s /\ calls_for k rules1 start eof pre x s.
Proof. intros H. apply calls_back in H as (x1 & s & E & -> & H). apply finj in E as <-. eauto. Qed.
Lemma calls_prod k pre x A i : calls_for k rules1 start eof pre x (TReduce A i) -> exists rhs, prod_at rules1 A i rhs.
Proof. intros H. inversion H as [|A0 i0 u N V|]; subst. apply completes_prod in V. eauto. Qed.
Lemma rewish_inj k pre x s s' : calls_for k rules1 start eof pre x s -> calls_for k rules1 start eof pre x s' -> rewish s = rewish s' -> s = s'.
Proof.
  intros H H' E. destruct s as [|A i|], s' as [|A' i'|]; try discriminate; auto. injection E as E1 E2. apply finj in E1 as <-. f_equal.
  apply calls_prod in H as (r & P), H' as (r' & P'). eapply (rn_index _ _ _ _ R); eauto.
Qed.

Lemma merged_completes {T} {OT : Ord T} (rules : rulemap T) S e pre A i u x : merged_look rules S e pre A i u x <-> completes LALR rules S e pre A i u x.
Proof.
  split.
  - intros (P & a & w & H & D & F & N). exists (a ++ u). split; auto. split; [now rewrite app_nil_r|]. exists a, w. auto.
  - intros (pre' & H & P & a & w & D & F & -> & N). rewrite app_nil_r in P. split; auto. exists a, w. auto.
Qed.
Lemma completes_image pre A' j u' y : completes LALR rules2 (f start) (f eof) pre A' j u' y -> exists pre1, pre = map f pre1.
Proof.
  intros (pre' & H & P & a & w & D & F & -> & N).
  assert (V : valid_after rules2 (f start) (a ++ u') A' j u' []) by (split; [exact P|exists a, w; auto]).
  apply H in V. apply (valid_back _ _ _ _ R) in V as (p1 & _ & _ & _ & _ & E & _). eauto.
Qed.
Lemma LALR1_f : LALR1 rules1 start eof <-> LALR1 rules2 (f start) (f eof).
Proof.
  split; intros [H1 H2]; split.
  - intros pre A i u B j v t Ha Hb. apply merged_completes in Ha, Hb. destruct (completes_image _ _ _ _ _ Ha) as (p & ->).
    apply completes_back in Ha as (A1 & i1 & u1 & x & -> & -> & -> & -> & Ha). apply completes_back in Hb as (B1 & j1 & v1 & x' & -> & -> & -> & E & Hb). apply finj in E as <-.
    apply merged_completes in Ha, Hb. destruct (H1 _ _ _ _ _ _ _ _ Ha Hb) as [-> ->]. auto.
  - intros pre A i u B j v t v' Ha Hb. apply merged_completes in Ha. destruct (completes_image _ _ _ _ _ Ha) as (p & ->).
    apply completes_back in Ha as (A1 & i1 & u1 & x & -> & -> & -> & -> & Ha). apply (valid_back _ _ _ _ R) in Hb as (p1 & B1 & j1 & v1 & z & E1 & -> & -> & -> & E & Hb).
    apply minj in E1 as <-. symmetry in E. apply map_cons_inv in E as (x' & z' & -> & E & ->). apply finj in E as <-.
    apply merged_completes in Ha. intros Ht. apply (H2 _ _ _ _ _ _ _ _ _ Ha Hb). now apply (term_f _ _ _ _ R).
  - intros pre A i u B j v t Ha Hb. pose proof (proj1 Ha) as Pa. pose proof (proj1 Hb) as Pb. apply merged_completes, completes_fwd, merged_completes in Ha, Hb.
    destruct (H1 _ _ _ _ _ _ _ _ Ha Hb) as [E1 E2]. apply finj in E1 as <-. split; auto. eapply (rn_index _ _ _ _ R); eauto.
  - intros pre A i u B j v t v' Ha Hb. apply merged_completes, completes_fwd, merged_completes in Ha. apply (valid_fwd _ _ _ _ R) in Hb.
    intros Ht. apply (H2 _ _ _ _ _ _ _ _ _ Ha Hb). now apply (term_f _ _ _ _ R).
Qed.

Section Run.
Variables (dbg1 dbg2 : bool) (g1 : grammar T1) (g2 : grammar T2) (k : method) (t1 : tabler T1) (t2 : tabler T2).
Hypothesis W1 : wf_rules rules1.
Hypothesis W2 : wf_rules rules2.
Hypothesis G1 : grammar_new dbg1 start rules1 eof = Val g1.
Hypothesis G2 : grammar_new dbg2 (f start) rules2 (f eof) = Val g2.
Hypothesis M1 : makes k dbg1 g1 t1.
Hypothesis M2 : makes k dbg2 g2 t2.
Hypothesis K1 : k <> LALR \/ (hands_on t1 /\ grounded rules1 start eof t1).
Hypothesis K2 : k <> LALR \/ (hands_on t2 /\ grounded rules2 (f start) (f eof) t2).
Hypothesis E1 : term rules1 eof.
Hypothesis S1 : dbg1 = true \/ single_start rules1 start.
Hypothesis S2 : dbg2 = true \/ single_start rules2 (f start).
Hypothesis N1 : dbg1 = true \/ only_terminals t1.
Hypothesis N2 : dbg2 = true \/ only_terminals t2.
Hypothesis P1 : productive rules1.

Let E2 : term rules2 (f eof) := proj1 (term_f _ _ _ _ R eof) E1.
Let P2 : productive rules2 := productive_f _ _ _ _ R P1.

Lemma renamed_conflicts : conflicts (t_actions t1) = [] <-> conflicts (t_actions t2) = [].
Proof.
  destruct k.
  - destruct (slr_SLR1 _ _ _ _ _ W1 G1 _ M1 E1 S1) as [A1 B1]. destruct (slr_SLR1 _ _ _ _ _ W2 G2 _ M2 E2 S2) as [A2 B2]. pose proof (SLR1_f _ _ _ _ R start eof) as H. split; intros C; [apply B2|apply B1]; auto; apply H; auto.
  - destruct (clr_LR1 _ _ _ _ _ W1 G1 _ M1 E1 S1) as [A1 B1]. destruct (clr_LR1 _ _ _ _ _ W2 G2 _ M2 E2 S2) as [A2 B2]. pose proof (LR1_f _ _ _ _ R start eof) as H. split; intros C; [apply B2|apply B1]; auto; apply H; auto.
  - destruct K1 as [|J1]; [contradiction|]. destruct K2 as [|J2]; [contradiction|].
    rewrite (lalr_iff_LALR1 _ _ _ _ _ W1 G1 _ M1 J1 E1 S1 N1 P1), (lalr_iff_LALR1 _ _ _ _ _ W2 G2 _ M2 J2 E2 S2 N2 P2). apply LALR1_f.
Qed.

Section Maps.
Context {M : Type}.
Variables (maps1 : reductmap T1 M) (maps2 : reductmap T2 M).
Hypothesis S12 : same_reductors f m rules1 maps1 maps2.

Lemma same_covers : covers rules1 maps1 /\ covers rules2 maps2.
Proof.
  split.
  - intros A i rhs P. destruct (S12 _ _ _ P) as (fs1 & h1 & _ & _ & H1 & H2 & _). eauto.
  - intros B j rhs P. destruct (prod_back _ _ _ _ R _ _ _ P) as (A & i & r & -> & -> & -> & P'). destruct (S12 _ _ _ P') as (_ & _ & fs2 & h2 & _ & _ & H1 & H2 & _). eauto.
Qed.

Definition alike_dfa (d1 : dfa T1 M) (d2 : dfa T2 M) : Prop :=
  d_items d2 = map (retok f) (d_items d1) /\ d_finished d1 = d_finished d2 /\ (d_finished d1 = false -> d_buffer d2 = map (retok f) (d_buffer d1)).

Lemma alike_step input d1 d2 : Forall (term rules1) (map tk_ty input) ->
  reaches t1 input maps1 d1 -> reaches t2 (map (retok f) input) maps2 d2 -> alike_dfa d1 d2 -> d_finished d1 = false ->
  exists d1' d2' o1 o2, stepsto d1 (d1', o1) /\ stepsto d2 (d2', o2) /\
    match o1, o2 with Ok, Ok => alike_dfa d1' d2' | Err e, Err e' => renamed_error f e e' | _, _ => False end.
Proof.
  intros I1 R1 R2 (Ti & Tf & Tb) F1. assert (d_finished d2 = false) as F2 by congruence. specialize (Tb F1). destruct same_covers as [C1 C2].
  assert (Ty : forall w : list (token T1 M), map tk_ty (map (retok f) w) = map f (map tk_ty w)) by (intros w; rewrite !map_map; reflexivity).
  assert (I2 : Forall (term rules2) (map tk_ty (map (retok f) input))) by (rewrite Ty; now apply (terms_f _ _ _ _ R)).
  assert (L : lookahead d2 = f (lookahead d1)).
  { unfold lookahead. rewrite Tb. destruct (d_buffer d1); auto. cbn [map].
    rewrite (reaches_eof _ _ _ _ _ W1 G1 maps1 k t1 M1 _ _ R1). now rewrite (reaches_eof _ _ _ _ _ W2 G2 maps2 k t2 M2 _ _ R2). }
  destruct (driver_textbook _ _ _ _ _ W1 G1 _ _ M1 K1 E1 S1 N1 P1 _ maps1 _ _ C1 I1 R1 F1 _ _ eq_refl eq_refl) as (f1 & d1' & o1 & X1 & Y1).
  destruct (driver_textbook _ _ _ _ _ W2 G2 _ _ M2 K2 E2 S2 N2 P2 _ maps2 _ _ C2 I2 R2 F2 _ _ eq_refl eq_refl) as (f2 & d2' & o2 & X2 & Y2).
  exists d1', d2', o1, o2. split; [now exists f1|]. split; [now exists f2|]. rewrite L, Ti, Ty, <- map_rev in Y2.
  set (pre := rev (map tk_ty (d_items d1))) in *. set (x := lookahead d1) in *. clearbody pre x.
  destruct Y1 as [[(s & s' & A1 & A2 & N) (a & b & ->)]|[[N (es & -> & Z1 & Z2)]|(s & A1 & U & D1)]];
  destruct Y2 as [[(z & z' & B1 & B2 & N') (a' & b' & ->)]|[[N' (es' & -> & Z1' & Z2')]|(z & B1 & U' & D2)]].
  - constructor.
  - exfalso. apply calls_fwd in A1. eapply N'; eauto.
  - exfalso. apply N. apply (rewish_inj _ _ _ _ _ A1 A2). apply calls_fwd, U' in A1. apply calls_fwd, U' in A2. congruence.
  - exfalso. apply calls_at in B1 as (s & _ & B1). eapply N; eauto.
  - constructor. intros y. rewrite Z2'. split.
    + intros (s' & H). apply calls_back in H as (z & s & -> & _ & H). exists z. split; auto. apply Z2. eauto.
    + intros (z & -> & H). apply Z2 in H as (s & H). apply calls_fwd in H. eauto.
  - exfalso. apply calls_at in B1 as (s & _ & B1). eapply N; eauto.
  - exfalso. apply calls_at in B1 as (s1 & -> & B1). apply calls_at in B2 as (s2 & -> & B2). apply U in B1, B2. congruence.
  - exfalso. apply calls_fwd in A1. eapply N'; eauto.
  - apply calls_at in B1 as (s1 & -> & B1). apply U in B1 as ->. destruct s as [|A i|]; cbn in D1, D2.
    + rewrite Tb in D2. destruct (d_buffer d1) as [|tok rest]; cbn [map] in D2; [subst; constructor|].
      destruct D1 as (-> & b1 & i1 & f1'). destruct D2 as (-> & b2 & i2 & f2'). split; [rewrite i2, i1, Ti; reflexivity|]. split; congruence.
    + destruct D1 as (-> & b1 & f1' & rhs & fs & h & Q1 & Q2 & Q3 & i1). destruct D2 as (-> & b2 & f2' & rhs' & fs' & h' & Q1' & Q2' & Q3' & i2).
      assert (rhs' = map f rhs) as -> by (eapply prod_at_fun'; [exact Q1'|]; now apply (rn_prod _ _ _ _ R)).
      destruct (S12 _ _ _ Q1) as (fs1 & h1 & fs2 & h2 & V1 & V2 & V3 & V4 & V5).
      assert (fs1 = fs) as -> by congruence. assert (h1 = h) as -> by congruence. assert (fs2 = fs') as -> by congruence. assert (h2 = h') as -> by congruence.
      split; [|split; congruence]. rewrite i2, i1, Ti, map_length, firstn_map, skipn_map, <- map_rev, V5. reflexivity.
    + destruct D1 as (f1' & i1 & ->). destruct D2 as (f2' & i2 & ->). rewrite Tb. destruct (d_buffer d1); cbn [map]; [|constructor].
      split; [congruence|]. split; [congruence|]. intros. congruence.
Qed.

Definition alike_end (x : dfa T1 M * outcome T1) (y : dfa T2 M * outcome T2) : Prop :=
  match snd x, snd y with Ok, Ok => d_items (fst y) = map (retok f) (d_items (fst x)) | Err e, Err e' => renamed_error f e e' | _, _ => False end.
Lemma alike_runs input d1 x : Forall (term rules1) (map tk_ty input) -> runs d1 x ->
  forall d2, reaches t1 input maps1 d1 -> reaches t2 (map (retok f) input) maps2 d2 -> alike_dfa d1 d2 -> exists y, runs d2 y /\ alike_end x y.
Proof.
  intros I1 R0. revert d1 x R0.
  refine (runs_ind (fun d1 x => forall d2, reaches t1 input maps1 d1 -> reaches t2 (map (retok f) input) maps2 d2 -> alike_dfa d1 d2 -> exists y, runs d2 y /\ alike_end x y) _ _ _).
  1: intros d F d2 R1 R2 Tw. 2: intros d d' e F S d2 R1 R2 Tw. 3: intros d d' r F S R0 IH d2 R1 R2 Tw.
  - exists (d2, Ok). destruct Tw as (Ti & Tf & _). split; [|exact Ti]. exists 1. simpl. now rewrite <- Tf, F.
  - destruct (alike_step _ _ _ I1 R1 R2 Tw F) as (a & b & o1 & o2 & X1 & X2 & H).
    pose proof (stepsto_fun _ _ _ S X1) as [= <- <-]. destruct o2 as [|e']; [easy|].
    exists (b, Err e'). split; auto. apply runs_err; auto. destruct Tw as (_ & Tf & _). congruence.
  - destruct (alike_step _ _ _ I1 R1 R2 Tw F) as (a & b & o1 & o2 & X1 & X2 & H).
    pose proof (stepsto_fun _ _ _ S X1) as [= <- <-]. destruct o2 as [|e']; [|easy].
    assert (d_finished d2 = false) as F2 by (destruct Tw as (_ & Tf & _); congruence).
    destruct (IH b) as (y & Y & HY); auto.
    + destruct S as (n & S). eapply reaches_round; [exact R1|]. split; eauto.
    + destruct X2 as (n & X2). eapply reaches_round; [exact R2|]. split; eauto.
    + exists y. split; auto. eapply runs_step; eauto.
Qed.
Lemma alike_runs_back input d2 y : Forall (term rules1) (map tk_ty input) -> runs d2 y ->
  forall d1, reaches t1 input maps1 d1 -> reaches t2 (map (retok f) input) maps2 d2 -> alike_dfa d1 d2 -> exists x, runs d1 x /\ alike_end x y.
Proof.
  intros I1 R0. revert d2 y R0.
  refine (runs_ind (fun d2 y => forall d1, reaches t1 input maps1 d1 -> reaches t2 (map (retok f) input) maps2 d2 -> alike_dfa d1 d2 -> exists x, runs d1 x /\ alike_end x y) _ _ _).
  1: intros d F d1 R1 R2 Tw. 2: intros d d' e F S d1 R1 R2 Tw. 3: intros d d' r F S R0 IH d1 R1 R2 Tw.
  all: assert (d_finished d1 = d_finished d) as Fd by (destruct Tw as (_ & Tf & _); congruence); rewrite F in Fd.
  - exists (d1, Ok). destruct Tw as (Ti & Tf & _). split; [|exact Ti]. exists 1. simpl. now rewrite Fd.
  - destruct (alike_step _ _ _ I1 R1 R2 Tw Fd) as (a & b & o1 & o2 & X1 & X2 & H).
    pose proof (stepsto_fun _ _ _ S X2) as [= <- <-]. destruct o1 as [|e']; [easy|].
    exists (a, Err e'). split; auto. apply runs_err; auto.
  - destruct (alike_step _ _ _ I1 R1 R2 Tw Fd) as (a & b & o1 & o2 & X1 & X2 & H).
    pose proof (stepsto_fun _ _ _ S X2) as [= <- <-]. destruct o1 as [|e']; [|easy].
    destruct (IH a) as (y & Y & HY); auto.
    + destruct X1 as (n & X1). eapply reaches_round; [exact R1|]. split; eauto.
    + destruct S as (n & S). eapply reaches_round; [exact R2|]. split; eauto.
    + exists y. split; auto. eapply runs_step; eauto.
Qed.

Lemma renamed_answers input : Forall (term rules1) (map tk_ty input) ->
  (forall r, parses t1 input maps1 r -> exists r', parses t2 (map (retok f) input) maps2 r' /\ renamed_result f r r') /\
  (forall r', parses t2 (map (retok f) input) maps2 r' -> exists r, parses t1 input maps1 r /\ renamed_result f r r').
Proof.
  intros I1.
  assert (Z1 : reaches t1 input maps1 (dfa_new input (t_actions t1) maps1 eof)) by (constructor; apply (makes_dfa _ _ _ _ _ W1 G1 maps1 _ _ M1)).
  assert (Z2 : reaches t2 (map (retok f) input) maps2 (dfa_new (map (retok f) input) (t_actions t2) maps2 (f eof))) by (constructor; apply (makes_dfa _ _ _ _ _ W2 G2 maps2 _ _ M2)).
  assert (A0 : alike_dfa (dfa_new input (t_actions t1) maps1 eof) (dfa_new (map (retok f) input) (t_actions t2) maps2 (f eof))) by (repeat split).
  split.
  - intros r Hp. apply (parses_runs _ _ _ _ _ W1 G1 maps1 _ _ M1) in Hp as (d' & o & R1 & ->).
    destruct (alike_runs _ _ _ I1 R1 _ Z1 Z2 A0) as ([d2 o2] & R2 & H).
    eexists. split; [apply (parses_runs _ _ _ _ _ W2 G2 maps2 _ _ M2); exists d2, o2; split; [exact R2|reflexivity]|].
    unfold alike_end in H. cbn [fst snd] in H. destruct o, o2; cbn; try easy; [|now constructor]. rewrite H. destruct (d_items d'); cbn; repeat constructor.
  - intros r Hp. apply (parses_runs _ _ _ _ _ W2 G2 maps2 _ _ M2) in Hp as (d' & o & R2 & ->).
    destruct (alike_runs_back _ _ _ I1 R2 _ Z1 Z2 A0) as ([d1 o1] & R1 & H).
    eexists. split; [apply (parses_runs _ _ _ _ _ W1 G1 maps1 _ _ M1); exists d1, o1; split; [exact R1|reflexivity]|].
    unfold alike_end in H. cbn [fst snd] in H. destruct o1, o; cbn; try easy; [|now constructor]. rewrite H. destruct (d_items d1); cbn; repeat constructor.
Qed.
End Maps.
End Run.
End RenameRun.
