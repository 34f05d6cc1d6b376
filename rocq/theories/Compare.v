(** The three methods on one input, whatever conflicts their tables have (C124). *)
From Coq Require Import List Bool Arith Lia.
From Verif Require Import BTree Model Base Spec SpecP GrammarP FirstFollow Interface LR Prefix Wrap Final Export LR1Spec ValidSpec CompareSpec Handle HandleF Dilemma Valid Textbook Dead.
Import ListNotations.

Section Lookaheads.
Context {T : Type} {OT : Ord T}.
Variables (rules : rulemap T) (start eof : T).
Notation calls_for k := (calls_for k rules start eof).

Lemma look_follow : noempty rules -> term rules eof -> forall pre A i u v x, valid_look rules start eof pre A i u v x -> follow_rules rules start eof A x.
Proof.
  intros NE He pre A i u v x (P & a & w & R & F & _ & <-). apply deriv_follow; auto. { eapply prod_nonterm; eauto. }
  apply rms_derives in R. split. { destruct F; auto. }
  assert (derives rules [start; eof] ((a ++ A :: w) ++ [eof])) as D by (change [start; eof] with ([start] ++ [eof]); apply derives_app; [auto|constructor]).
  rewrite <- app_assoc in D. destruct w as [|y w]; [now exists a, []|exists a, (w ++ [eof]); auto].
Qed.

Lemma completes_after k pre A i u x : completes k rules start eof pre A i u x -> valid_after rules start pre A i u [].
Proof.
  destruct k; cbn; [now intros [V _]| |].
  - intros (P & a & w & R & Tw & E & _). split; auto. eauto.
  - intros (pre' & S & P & a & w & R & Tw & E & _). apply S. split; auto. eauto.
Qed.

(** a weaker method completes a production whenever a stronger one does *)
Lemma completes_mono k1 k2 : noempty rules -> term rules eof -> weaker k1 k2 -> forall pre A i u x, completes k2 rules start eof pre A i u x -> completes k1 rules start eof pre A i u x.
Proof.
  intros NE He K pre A i u x H.
  assert (forall pre', valid_look rules start eof pre' A i u [] x -> valid_after rules start pre' A i u []) as V.
  { intros pre' (P & a & w & R & F & E & _). split; eauto. }
  destruct k1, k2; cbn in *; auto; try contradiction.
  - split; eauto using look_follow.
  - destruct H as (pre' & S & L). split; [apply S; auto|eauto using look_follow].
  - exists pre. split; auto. intros ? ? ? ?. tauto.
Qed.

Lemma calls_mono k1 k2 : noempty rules -> term rules eof -> weaker k1 k2 -> forall pre x s, calls_for k2 pre x s -> calls_for k1 pre x s.
Proof. intros NE He K pre x s [B j u v V|A i u N V|i u V]; econstructor; eauto using completes_mono. Qed.

Lemma fresh_rms a w : start_fresh rules start -> nonterm rules start -> rms rules [start] (a ++ start :: w) -> Forall (term rules) w -> a = [] /\ w = [].
Proof.
  intros SF N R F. apply rms_rsf in R; auto. inversion R as [|d B x i b1 A b2 v H P]; subst; auto. exfalso. apply SF in P. apply P, in_elt.
Qed.

Lemma prod_str v : productive rules -> exists w, derives rules v w /\ Forall (term rules) w.
Proof.
  intros HP. induction v as [|X v (w & D & F)]; [exists []; split; constructor|]. destruct (nonterm_dec rules X) as [N|N].
  - destruct (HP _ N) as (z & D' & F'). exists (z ++ w). split; [|now apply Forall_app]. change (X :: v) with ([X] ++ v). now apply derives_app.
  - exists (X :: w). split; [now apply derives_cons|now constructor].
Qed.

(** if after the reduction something is possible in front of [x], the reduction was *)
Lemma live_back a A i u x : productive rules -> term rules x -> prod_at rules A i u ->
  (exists s, calls_for CLR (a ++ [A]) x s) -> valid_look rules start eof (a ++ u) A i u [] x.
Proof.
  intros HP Hx P (s & C). pose proof (prod_nonterm _ _ _ _ P) as NA.
  assert (exists w, rsf rules start a A w /\ next eof w = x) as (w & R & N).
  { assert (forall B j u' v b w, rms rules [start] (b ++ B :: w) -> Forall (term rules) w -> a ++ [A] = b ++ u' -> prod_at rules B j (u' ++ v) ->
      forall z, derives rules v z -> Forall (term rules) z -> rsf rules start a A (z ++ w)) as G.
    { intros B j u' v b w R F E PB z D Z. apply rms_rsf in R; [|auto|eapply prod_nonterm; eauto].
      destruct u' as [|y u'] using rev_ind.
      - rewrite app_nil_r in E. cbn in PB. change (z ++ w) with ([] ++ z ++ w). eapply rsf_up; eauto; try now rewrite <- E.
        eapply derives_trans; [eapply derives_prod; eauto|auto].
      - rewrite app_assoc in E. apply app_inj_tail in E as [-> ->]. rewrite <- app_assoc in PB. eapply rsf_sub; eauto. }
    destruct C as [B j u' v V|B j u' _ V|j u' V].
    - destruct V as (PB & b & w & R & F & E). destruct (prod_str v HP) as (z & D & Z). exists ((x :: z) ++ w). split; auto.
      eapply G; eauto. now apply derives_cons.
    - destruct V as (PB & b & w & R & F & E & N). exists w. split; auto. apply (G _ _ _ _ _ _ R F E PB []); constructor.
    - destruct V as (PB & b & w & R & F & E & N). exists w. split; auto. apply (G _ _ _ _ _ _ R F E PB []); constructor. }
  split. { now rewrite app_nil_r. } exists a, w. split; [now apply rsf_rms|]. split; auto. eapply rsf_term; eauto.
Qed.

(** where the LR(1) machine has no step no method shifts or accepts *)
Lemma dead_reduces k pre x s : start_fresh rules start -> nonterm rules start -> (forall s, ~ calls_for CLR pre x s) -> calls_for k pre x s -> exists A i, s = TReduce A i.
Proof.
  intros SF NS N [B j u v V|A i u NE V|i u V]; eauto; exfalso.
  - eapply N. econstructor. exact V.
  - assert (x = eof /\ valid_after rules start pre start i u []) as [-> V'].
    { destruct k; cbn in V.
      - destruct V as [V F]. split; auto. inversion F as [|B j b A Y v t P|B j b A t P]; subst; auto; exfalso; apply SF in P; apply P, in_elt.
      - destruct V as (P & a & w & R & F & E & X). destruct (fresh_rms _ _ SF NS R F) as [-> ->]. split; auto. split; auto. exists [], []. auto.
      - destruct V as (pre' & S & P & a & w & R & F & E & X). destruct (fresh_rms _ _ SF NS R F) as [-> ->]. split; auto. apply S. split; auto. exists [], []. auto. }
    destruct V' as (P & a & w & R & F & E). destruct (fresh_rms _ _ SF NS R F) as [-> ->]. apply (N TAccept). econstructor. split; eauto. exists [], []. auto.
Qed.
End Lookaheads.

Lemma unexpected_buffer {T} {OT : Ord T} {M} fuel : forall (d d' : dfa T M) s x es, travel fuel d s = Val (d', Err (UnexpectedToken x es)) -> d_buffer d' = d_buffer d.
Proof.
  induction fuel as [|fuel IH]; intros d d' s x es E; simpl in E; [discriminate|].
  destruct (nth_error (d_table d) (d_top d)) as [st|]; [|discriminate]. destruct (bm_get s st) as [[]|]; try congruence.
  - unfold dfa_shift in E. destruct (d_buffer d); congruence.
  - unfold dfa_goto in E. congruence.
  - apply bind_val in E as (d0 & E0 & E). apply IH in E. rewrite E. unfold dfa_pop in E0. destruct (_ <? _); [discriminate|].
    apply bind_val in E0 as (fs & _ & E0). apply bind_val in E0 as (f & _ & E0). cbv zeta in E0. apply bind_val in E0 as (top & _ & E0). injection E0 as <-. reflexivity.
  - unfold dfa_accept in E. destruct (d_buffer d); congruence.
Qed.

Section Two.
Context {T : Type} {OT : Ord T} {M : Type}.
Variables (dbg : bool) (start eof : T) (rules : rulemap T) (g : grammar T).
Hypothesis W : wf_rules rules.
Hypothesis Hg : grammar_new dbg start rules eof = Val g.
Variables (k1 k2 : method) (t1 t2 : tabler T).
Hypothesis M1 : makes k1 dbg g t1.
Hypothesis M2 : makes k2 dbg g t2.
Hypothesis K : weaker k1 k2.
Hypothesis K1 : k1 <> LALR \/ (hands_on t1 /\ grounded rules start eof t1).
Hypothesis K2 : k2 <> LALR \/ (hands_on t2 /\ grounded rules start eof t2).
Hypothesis He : term rules eof.
Hypothesis Hs : dbg = true \/ single_start rules start.
Hypothesis O1 : dbg = true \/ only_terminals t1.
Hypothesis O2 : dbg = true \/ only_terminals t2.
Hypothesis HP : productive rules.
Hypothesis SF : start_fresh rules start.
Hypothesis NE : noempty rules.
Hypothesis NS : nonterm rules start.
Variable maps : reductmap T M.
Hypothesis HC : covers rules maps.
Variable input : list (token T M).
Hypothesis HI : Forall (term rules) (map tk_ty input).

Definition dead (d : dfa T M) : Prop := forall s, ~ calls_for CLR rules start eof (rev (map tk_ty (d_items d))) (lookahead d) s.

Lemma reach_look d : reaches t1 input maps d -> term rules (lookahead d).
Proof.
  intros R. pose proof (reaches_eof _ _ _ _ _ W Hg maps _ _ M1 _ _ R) as E. unfold lookahead. rewrite E. destruct (d_buffer d) as [|tok rest] eqn:B; auto.
  destruct (reaches_suffix _ _ _ _ _ W Hg maps _ _ M1 _ _ R) as (used & U). rewrite B in U. rewrite U, map_app in HI. apply Forall_app in HI as [_ H]. now inversion H.
Qed.

Lemma dead_runs d r : runs d r -> reaches t1 input maps d -> d_finished d = false -> dead d ->
  (exists a b, snd r = Err (ConflictErr a b)) \/ exists es, snd r = Err (UnexpectedToken (lookahead d) es) /\ d_buffer (fst r) = d_buffer d.
Proof.
  revert d r.
  refine (runs_ind (fun d r => reaches t1 input maps d -> d_finished d = false -> dead d ->
    (exists a b, snd r = Err (ConflictErr a b)) \/ exists es, snd r = Err (UnexpectedToken (lookahead d) es) /\ d_buffer (fst r) = d_buffer d) _ _ _).
  - intros d F _ F'. congruence.
  - intros d d' e F (fuel & S) R _ D.
    destruct (driver_textbook _ _ _ _ _ W Hg _ _ M1 K1 He Hs O1 HP _ maps _ _ HC HI R F _ _ eq_refl eq_refl) as (f & d'' & o & X & Y).
    pose proof (travel_fun _ _ _ _ _ _ S X) as [= <- <-]. cbn [fst snd].
    destruct Y as [[_ (a & b & E)]|[[_ (es & E & _)]|(s & C & _ & E)]].
    + left. eauto.
    + right. exists es. split; auto. rewrite E in S. eapply unexpected_buffer; eauto.
    + destruct (dead_reduces _ _ _ _ _ _ _ SF NS D C) as (A & i & ->). destruct E as (E & _). discriminate.
  - intros d d' r F (fuel & S) _ IH R _ D.
    destruct (driver_textbook _ _ _ _ _ W Hg _ _ M1 K1 He Hs O1 HP _ maps _ _ HC HI R F _ _ eq_refl eq_refl) as (f & d'' & o & X & Y).
    pose proof (travel_fun _ _ _ _ _ _ S X) as [= <- <-].
    destruct Y as [[_ (a & b & E)]|[[_ (es & E & _)]|(s & C & _ & E)]]; [discriminate..|].
    destruct (dead_reduces _ _ _ _ _ _ _ SF NS D C) as (A & i & ->). destruct E as (_ & Eb & F' & rhs & fs & ff & P & _ & _ & Ei).
    assert (R' : reaches t1 input maps d') by (eapply reaches_round; [exact R|split; eauto]).
    assert (EL : lookahead d' = lookahead d).
    { unfold lookahead. rewrite Eb. destruct (d_buffer d); auto. now rewrite (reaches_eof _ _ _ _ _ W Hg maps _ _ M1 _ _ R), (reaches_eof _ _ _ _ _ W Hg maps _ _ M1 _ _ R'). }
    rewrite <- EL, <- Eb. apply IH; auto. intros s L. inversion C as [|A0 i0 u N V|]; subst. apply completes_after in V as (P' & a & w & Rm & Fw & E).
    rewrite app_nil_r in P'. pose proof (prod_at_fun' _ _ _ _ _ P P') as ->.
    assert (Ea : rev (map tk_ty (skipn (length u) (d_items d))) = a).
    { apply (f_equal (@rev T)) in E. rewrite rev_involutive, rev_app_distr in E. rewrite <- skipn_map, E.
      rewrite skipn_app, rev_length, Nat.sub_diag, skipn_all2 by (rewrite rev_length; auto). simpl. apply rev_involutive. }
    rewrite Ei in L. cbn [map rev tk_ty] in L. rewrite Ea, EL in L.
    assert (V : valid_look rules start eof (a ++ u) A i u [] (lookahead d)) by (apply live_back; eauto using reach_look).
    apply (D (TReduce A i)). rewrite E. econstructor; eauto.
Qed.

Lemma mono_step d1 d2 : reaches t1 input maps d1 -> reaches t2 input maps d2 -> twin d1 d2 -> d_finished d1 = false ->
  exists d1' d2' o1 o2, stepsto d1 (d1', o1) /\ stepsto d2 (d2', o2) /\
    ((exists a b, o1 = Err (ConflictErr a b)) \/
     (exists es, o2 = Err (UnexpectedToken (lookahead d1) es)) /\ dead d1 \/
     (o1 = o2 /\ (o1 = Ok -> twin d1' d2') /\ (forall a b, o1 <> Err (ConflictErr a b)) /\ forall x es, o1 <> Err (UnexpectedToken x es))).
Proof.
  intros R1 R2 (Ti & Tf & Tb) F1. assert (d_finished d2 = false) as F2 by congruence. specialize (Tb F1).
  assert (L : lookahead d1 = lookahead d2).
  { unfold lookahead. rewrite Tb. destruct (d_buffer d2); auto.
    rewrite (reaches_eof _ _ _ _ _ W Hg maps k1 t1 M1 _ _ R1). now rewrite (reaches_eof _ _ _ _ _ W Hg maps k2 t2 M2 _ _ R2). }
  destruct (driver_textbook _ _ _ _ _ W Hg _ _ M1 K1 He Hs O1 HP _ maps _ _ HC HI R1 F1 _ _ eq_refl eq_refl) as (f1 & d1' & o1 & X1 & Y1).
  destruct (driver_textbook _ _ _ _ _ W Hg _ _ M2 K2 He Hs O2 HP _ maps _ _ HC HI R2 F2 _ _ eq_refl eq_refl) as (f2 & d2' & o2 & X2 & Y2).
  exists d1', d2', o1, o2. split; [now exists f1|]. split; [now exists f2|]. rewrite <- L, <- Ti in Y2. unfold dead.
  set (pre := rev (map tk_ty (d_items d1))) in *. set (x := lookahead d1) in *. clearbody pre x.
  assert (forall s, calls_for k2 rules start eof pre x s -> calls_for k1 rules start eof pre x s) as Mo by (apply calls_mono; auto).
  assert (forall s, calls_for CLR rules start eof pre x s -> calls_for k2 rules start eof pre x s) as Mc by (apply calls_mono; auto; now destruct k2).
  destruct Y1 as [[_ Y1]|[[N (es & E & _)]|(s & A1 & U & D1)]]; [now left| |];
  destruct Y2 as [[(z & z' & B1 & B2 & N') _]|[[N' (es' & E' & _)]|(z & B1 & _ & D2)]]; right.
  - exfalso. apply (N z); auto.
  - left. split; eauto. intros s C. apply (N' s); auto.
  - exfalso. apply (N z); auto.
  - exfalso. apply N'. rewrite (U z), (U z'); auto.
  - left. split; eauto. intros s0 C. apply (N' s0); auto.
  - right. rewrite (U z (Mo _ B1)) in D2. destruct s as [|A i|]; cbn in D1, D2.
    + rewrite Tb in D1. destruct (d_buffer d2) as [|tok rest]; [subst; repeat split; discriminate|].
      destruct D1 as (-> & b1 & i1 & f1'). destruct D2 as (-> & b2 & i2 & f2'). split; auto. split; [|split; discriminate]. intros _. split; [congruence|]. split; congruence.
    + destruct D1 as (-> & b1 & f1' & rhs & fs & f & Q1 & Q2 & Q3 & i1). destruct D2 as (-> & b2 & f2' & rhs' & fs' & f' & Q1' & Q2' & Q3' & i2).
      pose proof (prod_at_fun' _ _ _ _ _ Q1 Q1') as <-. assert (fs = fs') as <- by congruence. assert (f = f') as <- by congruence.
      split; auto. split; [|split; discriminate]. intros _. split; [congruence|]. split; congruence.
    + destruct D1 as (f1' & i1 & ->). destruct D2 as (f2' & i2 & ->). rewrite Tb. destruct (d_buffer d2); (split; [auto|]; split; [|split; discriminate]).
      * intros _. split; [congruence|]. split; [congruence|]. intros. congruence.
      * discriminate.
Qed.

Definition both (r1 r2 : dfa T M * outcome T) : Prop :=
  match snd r1, snd r2 with
  | Err (UnexpectedToken x _), Err (UnexpectedToken y _) => x = y /\ d_buffer (fst r1) = d_buffer (fst r2)
  | Ok, Ok => d_items (fst r1) = d_items (fst r2)
  | o1, o2 => o1 = o2
  end.

Lemma weak_runs d1 r1 : runs d1 r1 -> forall d2, reaches t1 input maps d1 -> reaches t2 input maps d2 -> twin d1 d2 ->
  (exists a b, snd r1 = Err (ConflictErr a b)) \/ exists r2, runs d2 r2 /\ both r1 r2.
Proof.
  revert d1 r1.
  refine (runs_ind (fun d1 r1 => forall d2, reaches t1 input maps d1 -> reaches t2 input maps d2 -> twin d1 d2 ->
    (exists a b, snd r1 = Err (ConflictErr a b)) \/ exists r2, runs d2 r2 /\ both r1 r2) _ _ _).
  1: intros d F d2 R1 R2 Tw. 2: intros d d' e F S d2 R1 R2 Tw. 3: intros d d' r F S R IH d2 R1 R2 Tw.
  - right. exists (d2, Ok). destruct Tw as (Ti & Tf & _). split; [|exact Ti]. apply runs_fin. congruence.
  - assert (d_finished d2 = false) as F2 by (destruct Tw as (_ & Tf & _); congruence).
    destruct (mono_step _ _ R1 R2 Tw F) as (a & b & o1 & o2 & X1 & X2 & H). pose proof (stepsto_fun _ _ _ S X1) as [= <- <-].
    destruct H as [H|[[(es & ->) D]|(<- & _ & N1 & N2)]]; [now left| |].
    + destruct (dead_runs _ _ (runs_err _ _ _ F S) R1 F D) as [H|(es1 & E & B)]; [now left|]. right. exists (b, Err (UnexpectedToken (lookahead d) es)).
      split; [now apply runs_err|]. cbn [fst snd] in *. injection E as ->. split; auto. cbn [fst]. rewrite B. destruct X2 as (f2 & X2). apply unexpected_buffer in X2. rewrite X2.
      destruct Tw as (_ & _ & Tb). auto.
    + right. exists (b, Err e). split; [now apply runs_err|]. unfold both. cbn [fst snd]. destruct e; auto. exfalso. eapply N2. reflexivity.
  - assert (d_finished d2 = false) as F2 by (destruct Tw as (_ & Tf & _); congruence).
    destruct (mono_step _ _ R1 R2 Tw F) as (a & b & o1 & o2 & X1 & X2 & H). pose proof (stepsto_fun _ _ _ S X1) as [= <- <-].
    destruct H as [(? & ? & H)|[[(es & ->) D]|(<- & Tw' & N1 & N2)]]; [discriminate| |].
    + destruct (dead_runs _ _ (runs_step _ _ _ F S R) R1 F D) as [H|(es1 & E & B)]; [now left|]. right. exists (b, Err (UnexpectedToken (lookahead d) es)).
      split; [now apply runs_err|]. unfold both. cbn [fst snd] in *. rewrite E. split; auto. rewrite B. destruct X2 as (f2 & X2). apply unexpected_buffer in X2. rewrite X2.
      destruct Tw as (_ & _ & Tb). auto.
    + destruct (IH b) as [H|(y & Y & HY)]; auto.
      * destruct S as (f & S). eapply reaches_round; [exact R1|]. split; eauto.
      * destruct X2 as (f & X2). eapply reaches_round; [exact R2|]. split; eauto.
      * right. exists y. split; auto. eapply runs_step; eauto.
Qed.

Lemma strong_runs d2 r2 : runs d2 r2 -> forall d1, reaches t1 input maps d1 -> reaches t2 input maps d2 -> twin d1 d2 ->
  (exists x es, snd r2 = Err (UnexpectedToken x es)) \/ exists r1, runs d1 r1 /\ ((exists a b, snd r1 = Err (ConflictErr a b)) \/ both r1 r2).
Proof.
  revert d2 r2.
  refine (runs_ind (fun d2 r2 => forall d1, reaches t1 input maps d1 -> reaches t2 input maps d2 -> twin d1 d2 ->
    (exists x es, snd r2 = Err (UnexpectedToken x es)) \/ exists r1, runs d1 r1 /\ ((exists a b, snd r1 = Err (ConflictErr a b)) \/ both r1 r2)) _ _ _).
  1: intros d2 F2 d1 R1 R2 Tw. 2: intros d2 d' e F2 S d1 R1 R2 Tw. 3: intros d2 d' r F2 S R IH d1 R1 R2 Tw.
  - right. exists (d1, Ok). destruct Tw as (Ti & Tf & _). split; [|right; exact Ti]. apply runs_fin. congruence.
  - assert (d_finished d1 = false) as F by (destruct Tw as (_ & Tf & _); congruence).
    destruct (mono_step _ _ R1 R2 Tw F) as (a & b & o1 & o2 & X1 & X2 & H). pose proof (stepsto_fun _ _ _ S X2) as [= <- <-].
    destruct H as [(x & y & ->)|[[(es & E) D]|(-> & _ & N1 & N2)]].
    + right. exists (a, Err (ConflictErr x y)). split; [now apply runs_err|]. left. cbn. eauto.
    + left. cbn. rewrite E. eauto.
    + right. exists (a, Err e). split; [now apply runs_err|]. right. unfold both. cbn [fst snd]. destruct e; auto. exfalso. eapply N2. reflexivity.
  - assert (d_finished d1 = false) as F by (destruct Tw as (_ & Tf & _); congruence).
    destruct (mono_step _ _ R1 R2 Tw F) as (a & b & o1 & o2 & X1 & X2 & H). pose proof (stepsto_fun _ _ _ S X2) as [= <- <-].
    destruct H as [(x & y & ->)|[[(es & E) D]|(-> & Tw' & N1 & N2)]]; [|discriminate|].
    + right. exists (a, Err (ConflictErr x y)). split; [now apply runs_err|]. left. cbn. eauto.
    + destruct (IH a) as [H|(y & Y & HY)]; auto.
      * destruct X1 as (f & X1). eapply reaches_round; [exact R1|]. split; eauto.
      * destruct S as (f & S). eapply reaches_round; [exact R2|]. split; eauto.
      * right. exists y. split; auto. eapply runs_step; eauto.
Qed.
End Two.

Section CompareF.
Context {T : Type} {OT : Ord T}.
Variables (dbg : bool) (start eof : T) (rules : rulemap T) (g : grammar T).
Hypothesis W : wf_rules rules.
Hypothesis Hg : grammar_new dbg start rules eof = Val g.

Lemma methods_agree k1 k2 t1 t2 : makes k1 dbg g t1 -> makes k2 dbg g t2 -> weaker k1 k2 ->
  k1 <> LALR \/ (hands_on t1 /\ grounded rules start eof t1) -> k2 <> LALR \/ (hands_on t2 /\ grounded rules start eof t2) ->
  term rules eof -> dbg = true \/ single_start rules start -> dbg = true \/ only_terminals t1 -> dbg = true \/ only_terminals t2 -> productive rules -> start_fresh rules start ->
  forall M (maps : reductmap T M) input, covers rules maps -> Forall (term rules) (map tk_ty input) ->
  (forall r1, parses t1 input maps r1 -> (exists a b, r1 = PErr (ConflictErr a b)) \/ exists r2, parses t2 input maps r2 /\ agree r1 r2) /\
  (forall r2, parses t2 input maps r2 -> (exists x es, r2 = PErr (UnexpectedToken x es)) \/
     exists r1, parses t1 input maps r1 /\ ((exists a b, r1 = PErr (ConflictErr a b)) \/ agree r1 r2)) /\
  (forall rest x es, fails t1 input maps rest (UnexpectedToken x es) -> exists es', fails t2 input maps rest (UnexpectedToken x es')).
Proof.
  intros M1 M2 K K1 K2 He Hs O1 O2 HP SF M maps input HC HI.
  destruct (Wp0 _ _ _ _ _ W Hg) as (p0 & Hp0 & Hp & _). pose proof (Wr _ _ _ _ _ Hg) as ER.
  destruct (makes_made _ _ _ _ _ W Hg _ _ _ M1 Hp0) as (sfk & lookf & X).
  pose proof (m_lr0 _ _ _ _ _ _ _ _ _ _ X) as L.
  assert (NE : noempty rules) by (intros A i rhs P; rewrite <- ER in P; eapply (l_noempty _ _ _ _ _ _ _ _ L); eauto).
  assert (NS : nonterm rules start) by (eapply prod_nonterm; eauto).
  assert (D1 : forall input, parser_dfa t1 input maps = Val (dfa_new input (t_actions t1) maps eof)) by (intros; eapply makes_dfa; eauto).
  assert (D2 : forall input, parser_dfa t2 input maps = Val (dfa_new input (t_actions t2) maps eof)) by (intros; eapply makes_dfa; eauto).
  assert (Tw : twin (dfa_new input (t_actions t1) maps eof) (dfa_new input (t_actions t2) maps eof)) by repeat split.
  assert (R1 : reaches t1 input maps (dfa_new input (t_actions t1) maps eof)) by now constructor.
  assert (R2 : reaches t2 input maps (dfa_new input (t_actions t2) maps eof)) by now constructor.
  pose proof (weak_runs dbg start eof rules g W Hg k1 k2 t1 t2 M1 M2 K K1 K2 He Hs O1 O2 HP SF NE NS maps HC input HI) as Weak.
  pose proof (strong_runs dbg start eof rules g W Hg k1 k2 t1 t2 M1 M2 K K1 K2 He Hs O1 O2 HP NE maps HC input HI) as Strong.
  split; [|split].
  - intros r1 P. apply (parses_runs _ _ _ _ _ W Hg maps _ _ M1) in P as (d' & o & R & ->).
    destruct (Weak _ _ R _ R1 R2 Tw) as [(a & b & E)|([d2 o2] & Y & B)]; [left; cbn in E; subst; eauto|]. right.
    eexists. split; [apply (parses_runs _ _ _ _ _ W Hg maps _ _ M2); exists d2, o2; split; [exact Y|reflexivity]|].
    unfold both in B. cbn [fst snd] in B. destruct o as [|e], o2 as [|e2]; try discriminate.
    + rewrite B. now destruct (d_items d2).
    + destruct e; discriminate.
    + destruct e, e2; cbn; try easy; congruence.
  - intros r2 P. apply (parses_runs _ _ _ _ _ W Hg maps _ _ M2) in P as (d' & o & R & ->).
    destruct (Strong _ _ R _ R1 R2 Tw) as [(x & es & E)|([d1 o1] & Y & B)]; [left; cbn in E; subst; eauto|]. right.
    eexists. split; [apply (parses_runs _ _ _ _ _ W Hg maps _ _ M1); exists d1, o1; split; [exact Y|reflexivity]|].
    destruct B as [(a & b & E)|B]; [left; cbn in E; subst; eauto|]. right. unfold both in B. cbn [fst snd] in B. destruct o1 as [|e], o as [|e2]; try discriminate.
    + rewrite B. now destruct (d_items d').
    + destruct e; discriminate.
    + destruct e, e2; cbn; try easy; congruence.
  - intros rest x es (d & d' & fuel & E1 & E2 & Eb). rewrite D1 in E1. injection E1 as <-.
    destruct (Weak _ _ (ex_intro _ _ E2) _ R1 R2 Tw) as [(a & b & E)|([d2 o2] & (f2 & Y) & B)]; [discriminate|].
    unfold both in B. cbn [fst snd] in B. destruct o2 as [|[]]; try discriminate. destruct B as [-> B].
    eexists. exists (dfa_new input (t_actions t2) maps eof), d2, f2. split; auto. split; [exact Y|]. congruence.
Qed.
End CompareF.
