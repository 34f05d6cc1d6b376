(** Every cell of the table is used (C127) *)
From Coq Require Import List Bool Arith Lia.
From Verif Require Import BTree Model Base Spec SpecP GrammarP FirstFollow Closure ActTab LR Sound CanonLR Prefix Complete RunFacts Interface Wrap LR1Spec ValidSpec StatesSpec StatesP Handle Valid Pass Export Final HeightSpec Height LiveSpec.
Import ListNotations.

(** ** tables with a cell left out *)
Section Cut.
Context {T : Type} {OT : Ord T} {M : Type}.
Variables (q : nat) (x : T) (acts acts' : acttable T).
Hypothesis Hcut : forall p row, nth_error acts p = Some row -> exists row', nth_error acts' p = Some row' /\
    forall y, bm_get y row' = if (Nat.eqb p q && eqb y x)%bool then None else bm_get y row.

Definition retab (d : dfa T M) : dfa T M := mkDfa (d_buffer d) (d_states d) (d_items d) acts' (d_top d) (d_finished d) (d_reductors d) (d_eof d).

Lemma pop_retab d A pr d1 : dfa_pop d A pr = Val d1 -> dfa_pop (retab d) A pr = Val (retab d1) /\ d_table d1 = d_table d.
Proof.
  unfold dfa_pop. cbn [retab d_items d_reductors d_states d_buffer d_finished d_eof d_table]. destruct (_ <? _); [discriminate|].
  intros E. apply bind_val in E as (fs & -> & E). apply bind_val in E as (f & E2 & E). apply bind_val in E as (tp & E3 & E). cbn [bind]. rewrite E2. cbn [bind]. rewrite E3. cbn [bind].
  injection E as <-. auto.
Qed.

Lemma travel_cut fuel d s d' : d_table d = acts -> travel fuel d s = Val (d', Ok) ->
  d_table d' = acts /\ (travel fuel (retab d) s = Val (retab d', Ok) \/ exists e es, travel fuel (retab d) s = Val (e, Err (UnexpectedToken x es))).
Proof.
  revert d s. induction fuel as [|fuel IH]; intros d s Et E; [discriminate|]. cbn [travel] in *. rewrite Et in E. cbn [retab d_table d_top].
  destruct (nth_error acts (d_top d)) as [row|] eqn:Er; [|discriminate]. destruct (Hcut _ _ Er) as (row' & Er' & Hr). rewrite Er', Hr.
  destruct (Nat.eqb (d_top d) q && eqb s x)%bool eqn:Eb.
  - apply andb_prop in Eb as [_ Eb]. apply eqb_eq in Eb. subst s. split; [|right; eauto].
    destruct (bm_get x row) as [[n|n|A pr| |a b]|]; try discriminate.
    + unfold dfa_shift in E. destruct (d_buffer d); [discriminate|]. now injection E as <-.
    + unfold dfa_goto in E. now injection E as <-.
    + apply bind_val in E as (d1 & E1 & E2). apply pop_retab in E1 as [_ E1]. apply (fun H => proj1 (IH d1 A H E2)). congruence.
    + unfold dfa_accept in E. injection E as <- _. auto.
  - destruct (bm_get s row) as [[n|n|A pr| |a b]|]; try discriminate.
    + unfold dfa_shift in *. cbn [retab d_buffer]. destruct (d_buffer d); [discriminate|]. injection E as <-. split; [exact Et|left; reflexivity].
    + unfold dfa_goto in *. injection E as <-. split; [exact Et|left; reflexivity].
    + apply bind_val in E as (d1 & E1 & E2). apply pop_retab in E1 as [E1 E3]. rewrite E1. cbn [bind]. eapply IH; [|exact E2]. congruence.
    + unfold dfa_accept in *. injection E as <- E. split; auto. left. cbn. now rewrite E.
Qed.

Lemma steps_cut d d' : steps d d' -> d_table d = acts -> d_table d' = acts /\ (steps (retab d) (retab d') \/ exists e es, runs (retab d) (e, Err (UnexpectedToken x es))).
Proof.
  induction 1 as [d|d d1 d2 Ef (fuel & E) H IH]; intros Et; [split; auto; left; constructor|].
  destruct (travel_cut _ _ _ _ Et E) as [Et1 [E1|(e & es & E1)]].
  - destruct (IH Et1) as [Et2 [H2|(e & es & H2)]]; split; auto.
    + left. eapply steps_cons; eauto. exists fuel. exact E1.
    + right. exists e, es. eapply runs_step; eauto. exists fuel. exact E1.
  - destruct (IH Et1) as [Et2 _]. split; auto. right. exists e, es. apply runs_err; auto. exists fuel. exact E1.
Qed.
End Cut.

Section Live.
Context {T : Type} {OT : Ord T}.
Variables (dbg : bool) (start eof : T) (rules : rulemap T) (g : grammar T).
Hypothesis W : wf_rules rules.
Hypothesis Hg : grammar_new dbg start rules eof = Val g.
Context {M : Type}.
Variable maps : reductmap T M.
Variables (k : method) (t : tabler T).
Hypothesis Hm : makes k dbg g t.
Hypothesis Heof : term rules eof.
Hypothesis Hk : k <> LALR \/ carries t.
Hypothesis Hf : start_fresh rules start.
Hypothesis Hone : single_start rules start.
Hypothesis Hprod : productive rules.
Hypothesis Hcov : covers rules maps.
Hypothesis Hc : conflicts (t_actions t) = [].
Variable m0 : M.

(** after [a u] the driver has [A -> u . v] in its state and, if [v] is what it reads next, [x] after it *)
Lemma live_rsf a A x i u v : rsf rules start a A x -> prod_at rules A i (u ++ v) -> exists input d wv,
  sentence rules start (map tk_ty input) /\ reaches t input maps d /\ d_finished d = false /\ rev (map tk_ty (d_items d)) = a ++ u /\
  map tk_ty (d_buffer d) = wv ++ x /\ derives rules v wv.
Proof.
  intros R HA. destruct (Wp0 _ _ _ _ _ W Hg) as (p0 & Hp0 & Hpr & Hz). destruct (makes_made _ _ _ _ _ W Hg _ _ _ Hm Hp0) as (sfk & lookf & X).
  pose proof (m_lr0 _ _ _ _ _ _ _ _ _ _ X) as L. pose proof (Wr _ _ _ _ _ Hg) as Er. pose proof (m_lr1c _ _ _ _ _ _ _ _ _ _ X Hk Heof) as C.
  pose proof (Wrap.one_start _ _ p0 Hpr Hone) as H1. rewrite <- Er in *.
  destruct (productive_str g u Hprod) as (wu & Du & Fu). destruct (productive_str g v Hprod) as (wv & Dv & Fv).
  destruct (toks_evals g m0 maps Hcov _ _ Du Fu) as (iu & Eu). destruct (toks_evals g m0 maps Hcov _ _ Dv Fv) as (iv & Ev).
  assert (evals_seq (g_rules g) maps (u ++ v) (toks m0 wu ++ toks m0 wv) (iu ++ iv)) as E4.
  { clear -Eu Ev. revert Eu. generalize (toks m0 wu) as z. revert iu. induction u as [|Y Ys IH]; intros iu z E; inversion E; subst; auto. rewrite <- app_assoc. cbn [app]. constructor; auto. }
  destruct (Hcov _ _ _ HA) as (fs & f & Ef & Ef2).
  pose proof (evals_rule _ maps _ _ _ _ _ _ _ HA E4 Ef Ef2) as E5. rewrite <- toks_app in E5.
  destruct (reach_rsf _ _ _ _ _ _ _ _ L C Heof H1 Hprod m0 maps Hcov _ _ _ R _ _ E5) as (pre & K1 & K2 & K3).
  assert (~ halted g start (dfa_new (toks m0 (pre ++ (wu ++ wv) ++ x)) (t_actions t) maps eof)) as NH.
  { intros Hh. apply (fresh_halted _ _ _ Hf) in Hh. revert Hh. eapply (clean_not_stuck _ _ _ _ _ _ _ _ L Heof maps); auto.
    - apply dfa_new_sinv.
    - unfold terms. cbn [dfa_new d_buffer]. now rewrite toks_ty. }
  destruct K3 as [(d & Q1 & Q2 & Q3 & Q4 & Q5 & Q6)|Hh]; [|now apply NH in Hh]. pose proof (Q6 _ _ HA) as Hh.
  assert (term (g_rules g) (next eof x)) as Hter by (apply next_term; auto; eapply rsf_term; eauto).
  destruct (follow_prefix _ _ _ _ _ _ _ _ L C maps _ _ _ Eu _ _ _ Ev d (toks m0 x) A (u ++ v, i) 0 Q2 Q3) as [(d' & R1 & R2 & R3 & R4 & R5 & R6)|Hst]; rewrite ?la_next; auto; try lia.
  - rewrite Q4, !toks_app. now rewrite <- !app_assoc.
  - exists (toks m0 (pre ++ (wu ++ wv) ++ x)), d', wv. rewrite toks_ty. split; [split; auto|]. split.
    { eapply steps_reaches; [exact (steps_trans _ _ _ Q1 R1)|]. constructor. apply (makes_dfa _ _ _ _ _ W Hg maps _ _ Hm). }
    split; auto. split. { rewrite R5, map_app, map_rev, rev_app_distr, rev_involutive, Q5. f_equal. now apply (proj2 (evals_ty (g_rules g) maps)) in Eu. }
    split; auto. rewrite R4, <- toks_app. apply toks_ty.
  - exfalso. apply NH. eapply steps_halted; eauto.
Qed.

Lemma stack_fun qs qs' Xs : stack_path t qs Xs -> stack_path t qs' Xs -> qs = qs'.
Proof.
  intros P P'. destruct (Wp0 _ _ _ _ _ W Hg) as (p0 & Hp0 & _). destruct (makes_made _ _ _ _ _ W Hg _ _ _ Hm Hp0) as (sfk & lookf & X).
  pose proof (m_lr0 _ _ _ _ _ _ _ _ _ _ X) as L. apply (moves_path _ _ _ _ _ _ _ _ _ L) in P, P'. eapply path_fun; eauto.
Qed.

Lemma live_valid pre A i u v : valid_after rules start pre A i u v -> exists input d wv rest,
  sentence rules start (map tk_ty input) /\ reaches t input maps d /\ d_finished d = false /\ rev (map tk_ty (d_items d)) = pre /\
  map tk_ty (d_buffer d) = wv ++ rest /\ derives rules v wv.
Proof.
  intros (HA & a & w & R & Tw & ->). apply rms_rsf in R; auto; [|eapply prod_nonterm; eauto].
  destruct (live_rsf _ _ _ _ _ _ R HA) as (input & d & wv & H). exists input, d, wv, w. exact H.
Qed.

Lemma live_look pre A i u x : valid_look rules start eof pre A i u [] x -> exists input d,
  sentence rules start (map tk_ty input) /\ reaches t input maps d /\ d_finished d = false /\ rev (map tk_ty (d_items d)) = pre /\ lookahead d = x.
Proof.
  intros (HA & a & w & R & Tw & -> & N). apply rms_rsf in R; auto; [|eapply prod_nonterm; eauto].
  destruct (live_rsf _ _ _ _ _ _ R HA) as (input & d & wv & H1 & H2 & H3 & H4 & H5 & H6). exists input, d. repeat (split; auto); try apply H1.
  apply derives_nil in H6. subst wv. cbn [app] in H5. unfold lookahead.
  assert (d_eof d = eof) as ->.
  { destruct (Wp0 _ _ _ _ _ W Hg) as (p0 & Hp0 & _). destruct (makes_made _ _ _ _ _ W Hg _ _ _ Hm Hp0) as (sfk & lookf & X).
    pose proof (m_lr0 _ _ _ _ _ _ _ _ _ _ X) as L. pose proof (Wr _ _ _ _ _ Hg) as Er. apply (reaches_steps _ _ _ _ _ W Hg maps _ _ Hm) in H2. destruct H1 as [_ H1]. rewrite <- Er in H1, Heof.
    destruct (steps_vinv _ _ _ _ _ _ _ _ L Heof maps _ _ H2 H1) as (Hs & _). apply Hs. }
  destruct (d_buffer d); cbn in H5; subst w; auto.
Qed.

(** states *)
Lemma live_state q : q < length (t_states t) -> exists input d, sentence rules start (map tk_ty input) /\ reaches t input maps d /\ d_finished d = false /\ d_top d = q.
Proof.
  intros Hq. destruct (makes_states _ _ _ _ _ W Hg _ _ Hm) as (_ & HR & _). destruct (HR _ Hq) as (qs & xs & P).
  destruct (items_valid _ _ _ _ _ W Hg _ _ Hm (or_intror Hone) Hprod) as (_ & HV & _).
  destruct (proj1 (HV (rev xs))) as (A & i & u & v & V); [exists q, qs; now rewrite rev_involutive|].
  destruct (live_valid _ _ _ _ _ V) as (input & d & wv & rest & H1 & H2 & H3 & H4 & _). exists input, d. repeat (split; auto); try apply H1.
  destruct (reaches_stack _ _ _ _ _ W Hg maps _ _ Hm Heof _ _ H2 (proj2 H1)) as (P2 & P3 & _).
  apply (f_equal (@rev T)) in H4. rewrite !rev_involutive in H4. rewrite H4 in P2. rewrite (stack_fun _ _ _ P2 P) in P3. cbn in P3. congruence.
Qed.

Lemma top_of d input q qs xs : reaches t input maps d -> sentence rules start (map tk_ty input) -> rev (map tk_ty (d_items d)) = rev xs -> stack_path t (q :: qs) xs -> d_states d = q :: qs /\ d_top d = q.
Proof.
  intros H2 H1 H4 P. destruct (reaches_stack _ _ _ _ _ W Hg maps _ _ Hm Heof _ _ H2 (proj2 H1)) as (P2 & P3 & _).
  apply (f_equal (@rev T)) in H4. rewrite !rev_involutive in H4. rewrite H4 in P2. rewrite (stack_fun _ _ _ P2 P) in P3 |- *. cbn in P3. split; congruence.
Qed.

(** items at a dot *)
Lemma live_dot q A i u X v : item_in t q A i u (X :: v) -> exists input d wv rest qs,
  sentence rules start (map tk_ty input) /\ reaches t input maps d /\ d_finished d = false /\ d_states d = q :: qs /\ d_top d = q /\
  map tk_ty (d_buffer d) = wv ++ rest /\ derives rules (X :: v) wv.
Proof.
  intros Hi. assert (q < length (t_states t)) as Hq by (destruct Hi as (row & pos & E & _); apply nth_error_Some; congruence).
  destruct (makes_states _ _ _ _ _ W Hg _ _ Hm) as (_ & HR & _). destruct (HR _ Hq) as (qs & xs & P).
  destruct (items_valid _ _ _ _ _ W Hg _ _ Hm (or_intror Hone) Hprod) as (HI & _).
  apply (HI _ _ _ P) in Hi. destruct (live_valid _ _ _ _ _ Hi) as (input & d & wv & rest & H1 & H2 & H3 & H4 & H5 & H6).
  destruct (top_of _ _ _ _ _ H2 H1 H4 P) as [E1 E2]. exists input, d, wv, rest, qs. auto 8.
Qed.

Lemma live_shift q A i u x v : item_in t q A i u (x :: v) -> term rules x -> exists input d,
  sentence rules start (map tk_ty input) /\ reaches t input maps d /\ d_finished d = false /\ d_top d = q /\ lookahead d = x.
Proof.
  intros Hi Hx. destruct (live_dot _ _ _ _ _ _ Hi) as (input & d & wv & rest & qs & H1 & H2 & H3 & _ & H4 & H5 & H6). exists input, d. repeat (split; auto); try apply H1.
  change (x :: v) with ([x] ++ v) in H6. apply derives_split in H6 as (w1 & w2 & -> & D1 & _). apply derives_terms in D1; [|now constructor]. subst w1.
  unfold lookahead. destruct (d_buffer d); cbn in H5; congruence.
Qed.

Lemma live_goto q A i u B v : item_in t q A i u (B :: v) -> exists input d n qs it its,
  sentence rules start (map tk_ty input) /\ reaches t input maps d /\ d_finished d = false /\ d_states d = n :: q :: qs /\ d_items d = it :: its /\ tk_ty it = B.
Proof.
  intros Hi. assert (q < length (t_states t)) as Hq by (destruct Hi as (row & pos & E & _); apply nth_error_Some; congruence).
  destruct (makes_states _ _ _ _ _ W Hg _ _ Hm) as (_ & HR & _). destruct (HR _ Hq) as (qs & xs & P).
  destruct (items_valid _ _ _ _ _ W Hg _ _ Hm (or_intror Hone) Hprod) as (HI & _).
  apply (HI _ _ _ P) in Hi. assert (valid_after rules start (rev (B :: xs)) A i (u ++ [B]) v) as V.
  { destruct Hi as (K1 & a & w & K2 & K3 & K4). split; [now rewrite <- app_assoc|]. exists a, w. split; auto. split; auto. cbn [rev]. now rewrite K4, <- app_assoc. }
  destruct (live_valid _ _ _ _ _ V) as (input & d & wv & rest & H1 & H2 & H3 & H4 & _).
  destruct (reaches_stack _ _ _ _ _ W Hg maps _ _ Hm Heof _ _ H2 (proj2 H1)) as (P2 & P3 & _).
  apply (f_equal (@rev T)) in H4. rewrite !rev_involutive in H4. rewrite H4 in P2. inversion P2 as [|q1 qs1 X1 Xs1 n P4 Hmv E1 E2]; subst.
  pose proof (stack_fun _ _ _ P4 P) as E. injection E as -> ->. destruct (d_items d) as [|it its] eqn:Ei; [discriminate|]. injection H4 as H5 H6.
  exists input, d, n, qs, it, its. repeat (split; auto); try apply H1.
Qed.

Section Exact.
Hypothesis Ho : dbg = true \/ only_terminals t.
Hypothesis Hx : k = CLR \/ (k = LALR /\ grounded rules start eof t).

Lemma live_reduce q A i u x : item_look t q A i u [] x -> exists input d,
  sentence rules start (map tk_ty input) /\ reaches t input maps d /\ d_finished d = false /\ d_top d = q /\ lookahead d = x.
Proof.
  intros Hi. assert (q < length (t_states t)) as Hq by (destruct Hi as (row & pos & E & _); apply nth_error_Some; congruence).
  destruct (makes_states _ _ _ _ _ W Hg _ _ Hm) as (_ & HR & _). destruct (HR _ Hq) as (qs & xs & P).
  assert (exists q2 qs2 xs2, stack_path t (q2 :: qs2) xs2 /\ q2 = q /\ valid_look rules start eof (rev xs2) A i u [] x) as (q2 & qs2 & xs2 & P2 & E & V).
  { destruct Hx as [->|[-> Hgr]].
    - exists q, qs, xs. split; auto. split; auto. now apply (looks_valid _ _ _ _ _ W Hg _ Hm Heof (or_intror Hone) Ho Hprod _ _ _ P).
    - assert (hands_on t) as Hh by (destruct Hk as [Hk'|Hk']; [congruence|]; eapply carries_hands_on; eauto).
      destruct (lalr_exact _ _ _ _ _ W Hg _ Hm Heof (or_intror Hone) Ho Hprod) as [_ [HE _]]. apply (HE (conj Hh Hgr) _ _ _ P) in Hi as (pre & Hs & V).
      destruct (items_valid _ _ _ _ _ W Hg _ _ Hm (or_intror Hone) Hprod) as (HI & HV & HP).
      destruct (proj2 (HV pre)) as (q2 & qs2 & P2).
      { exists A, i, u, []. destruct V as (V1 & a & w & V2 & V3 & V4 & _). split; eauto. }
      exists q2, qs2, (rev pre). split; auto. rewrite rev_involutive. split; auto.
      assert (q2 < length (t_states t)) as Hq2.
      { destruct (Wp0 _ _ _ _ _ W Hg) as (p0 & Hp0 & _). destruct (makes_made _ _ _ _ _ W Hg _ _ _ Hm Hp0) as (sfk & lookf & X).
        pose proof (m_lr0 _ _ _ _ _ _ _ _ _ _ X) as L. apply (moves_path _ _ _ _ _ _ _ _ _ L) in P2. destruct (path_top _ _ _ _ _ _ _ _ L _ _ P2) as (q3 & qs3 & E & Hlt). now injection E as <- <-. }
      apply nth_error_Some in Hq, Hq2. destruct (nth_error (t_states t) q) as [row|] eqn:E1; [|congruence]. destruct (nth_error (t_states t) q2) as [row2|] eqn:E2; [|congruence].
      eapply (makes_cores _ _ _ _ _ W Hg); eauto. 
      assert (forall q1 qs1 xs1 row1, stack_path t (q1 :: qs1) xs1 -> nth_error (t_states t) q1 = Some row1 -> forall B pr p, (exists l, In (mkPos B pr p l) row1) <-> p <= length (fst pr) /\ valid_after rules start (rev xs1) B (snd pr) (firstn p (fst pr)) (skipn p (fst pr))) as G.
      { intros q1 qs1 xs1 row1 P1 F1 B [rhs j] p. cbn [fst snd]. split.
        - intros (l & Hl). destruct (HP _ _ _ F1 Hl) as (B' & j' & u' & v' & X1 & X2 & X3). cbn in X1, X2, X3. injection X2 as -> ->. subst. split; [rewrite app_length; lia|].
          rewrite firstn_app, skipn_app, firstn_all, skipn_all, Nat.sub_diag, app_nil_r. apply (HI _ _ _ P1). exists row1. eexists. split; eauto.
        - intros [Hle V1]. apply (HI _ _ _ P1) in V1 as (row' & [B' pr' p' l] & X0 & X1 & X2 & X3 & X4). cbn in X2, X3, X4. rewrite firstn_skipn in X3. rewrite firstn_length_le in X4 by auto. subst. exists l. congruence. }
      intros B pr p. rewrite (G _ _ _ _ P2 E2), (G _ _ _ _ P E1), rev_involutive. split; intros [Y1 Y2]; split; auto; now apply Hs. }
  subst q2. destruct (live_look _ _ _ _ _ V) as (input & d & H1 & H2 & H3 & H4 & H5). destruct (top_of _ _ _ _ _ H2 H1 H4 P2) as [_ E2].
  exists input, d. auto 8.
Qed.
End Exact.

(** cells *)
Lemma cell_leaf q row x a : nth_error (t_actions t) q = Some row -> bm_get x row = Some a -> inside a a.
Proof.
  intros E1 E2. destruct a as [| | | |a b]; try reflexivity. exfalso. assert (In (Conflict a b) (conflicts (t_actions t))) as H; [|now rewrite Hc in H].
  apply (entry_conflicts _ q x). unfold entry. now rewrite E1.
Qed.

Lemma dot_item q row pos x : nth_error (t_states t) q = Some row -> In pos row -> at_dot pos = Some x -> exists A i u v, item_in t q A i u (x :: v).
Proof.
  intros E H Hd. unfold at_dot in Hd. destruct pos as [A [rhs i] p l]. cbn in Hd. apply nth_error_split in Hd as (u & v & -> & <-).
  exists A, i, u, v, row, (mkPos A (u ++ x :: v, i) (length u) l). auto.
Qed.

Lemma live_plain q row x a : nth_error (t_actions t) q = Some row -> bm_get x row = Some a -> (forall n, a <> Goto n) ->
  (exists n, a = Shift n) \/ (dbg = true \/ only_terminals t) /\ (k = CLR \/ (k = LALR /\ grounded rules start eof t)) ->
  exists input d, sentence rules start (map tk_ty input) /\ reaches t input maps d /\ d_finished d = false /\ d_top d = q /\ lookahead d = x.
Proof.
  intros E1 E2 Hx Hcase. destruct (table_exact _ _ _ _ _ W Hg _ _ Hm) as (go & _ & _ & HT). destruct (HT _ _ E1) as (_ & HD & _).
  pose proof (makes_grammar _ _ _ _ _ W Hg _ _ Hm) as EG. pose proof (Wr _ _ _ _ _ Hg) as Er.
  pose proof (proj1 (HD x a) (ex_intro _ a (conj E2 (cell_leaf _ _ _ _ E1 E2)))) as D. 
  destruct D as [r pos y F1 F2 F3 F4|r pos y F1 F2 F3 F4|r pos y F1 F2 F3 F4 F5|r pos y F1 F2 F3 F4 F5].
  - destruct (dot_item _ _ _ _ F1 F2 F3) as (A & i & u & v & Hi). eapply live_shift; eauto. now rewrite EG, Er in F4.
  - now destruct (Hx (go q y)).
  - destruct Hcase as [(n & H)|[Ho Hx']]; [discriminate|]. destruct (items_valid _ _ _ _ _ W Hg _ _ Hm (or_intror Hone) Hprod) as (_ & _ & HP).
    destruct (HP _ _ _ F1 F2) as (A & i & u & v & X1 & X2 & X3). unfold at_dot in F3. rewrite X2, X3 in F3. cbn in F3.
    assert (v = []) as -> by (destruct v; auto; rewrite nth_error_app2, Nat.sub_diag in F3 by auto; discriminate).
    apply (live_reduce Ho Hx' q A i u). exists r, pos. repeat (split; auto). unfold allows in F4. destruct Hx' as [->|[-> _]]; auto.
  - destruct Hcase as [(n & H)|[Ho Hx']]; [discriminate|]. destruct (items_valid _ _ _ _ _ W Hg _ _ Hm (or_intror Hone) Hprod) as (_ & _ & HP).
    destruct (HP _ _ _ F1 F2) as (A & i & u & v & X1 & X2 & X3). unfold at_dot in F3. rewrite X2, X3 in F3. cbn in F3.
    assert (v = []) as -> by (destruct v; auto; rewrite nth_error_app2, Nat.sub_diag in F3 by auto; discriminate).
    apply (live_reduce Ho Hx' q A i u). exists r, pos. repeat (split; auto). unfold allows in F4. destruct Hx' as [->|[-> _]]; auto.
Qed.

Lemma live_cells : dbg = true \/ only_terminals t -> k = CLR \/ (k = LALR /\ grounded rules start eof t) ->
  forall q row x a, nth_error (t_actions t) q = Some row -> bm_get x row = Some a -> (forall n, a <> Goto n) ->
  exists input d, sentence rules start (map tk_ty input) /\ reaches t input maps d /\ d_finished d = false /\ d_top d = q /\ lookahead d = x.
Proof. eauto using live_plain. Qed.

Lemma live_shifts q row x n : nth_error (t_actions t) q = Some row -> bm_get x row = Some (Shift n) ->
  exists input d, sentence rules start (map tk_ty input) /\ reaches t input maps d /\ d_finished d = false /\ d_top d = q /\ lookahead d = x.
Proof. intros E1 E2. eapply live_plain; eauto. discriminate. Qed.

Lemma live_gotos q row A n : nth_error (t_actions t) q = Some row -> bm_get A row = Some (Goto n) -> exists input d qs it its,
  sentence rules start (map tk_ty input) /\ reaches t input maps d /\ d_finished d = false /\ d_states d = n :: q :: qs /\ d_items d = it :: its /\ tk_ty it = A.
Proof.
  intros E1 E2. destruct (table_exact _ _ _ _ _ W Hg _ _ Hm) as (go & _ & _ & HT). destruct (HT _ _ E1) as (_ & HD & _).
  pose proof (proj1 (HD A _) (ex_intro _ _ (conj E2 (cell_leaf _ _ _ _ E1 E2)))) as D. inversion D as [|r pos y F1 F2 F3 F4 F5| |]; subst.
  destruct (dot_item _ _ _ _ F1 F2 F3) as (B & i & u & v & Hi). destruct (live_goto _ _ _ _ _ _ Hi) as (input & d & n & qs & it & its & H1 & H2 & H3 & H4 & H5 & H6).
  exists input, d, qs, it, its. repeat (split; auto); try apply H1. rewrite H4. f_equal.
  destruct (reaches_stack _ _ _ _ _ W Hg maps _ _ Hm Heof _ _ H2 (proj2 H1)) as (P2 & _). rewrite H4, H5 in P2. cbn [map] in P2.
  inversion P2 as [|q1 qs1 X1 Xs1 n1 P4 Hmv]; subst. destruct Hmv as (row' & a & Z1 & Z2 & Z3). rewrite E1 in Z1. injection Z1 as <-. rewrite E2 in Z2. injection Z2 as <-. cbn in Z3. destruct Z3; congruence.
Qed.

(** leaving out a cell spoils some sentence *)
Lemma cut_error q x t' input d e es : leaves_out q x t t' -> sentence rules start (map tk_ty input) -> reaches t input maps d -> d_finished d = false ->
  stepsto (retab (t_actions t') d) (e, Err (UnexpectedToken x es)) ->
  exists m es, sentence rules start (map tk_ty input) /\ parses t input maps (POk m) /\ parses t' input maps (PErr (UnexpectedToken x es)).
Proof.
  intros (G1 & G2 & G3) H1 H2 H3 Hst. destruct (clean_parses _ _ _ _ _ W Hg maps _ _ Hm Heof Hcov input Hk Hf Hone Hc H1) as (m & Hp).
  exists m. pose proof (reaches_steps _ _ _ _ _ W Hg maps _ _ Hm _ _ H2) as R. destruct (steps_cut _ _ _ _ G3 _ _ R eq_refl) as [_ K].
  assert (exists e es, runs (dfa_new input (t_actions t') maps eof) (e, Err (UnexpectedToken x es))) as (e2 & es2 & (fuel & R2)).
  { destruct K as [K|K]; [|exact K]. exists e, es. eapply steps_runs; [exact K|]. now apply runs_err. }
  exists es2. split; auto. split; auto. exists fuel. unfold parser_parse, parser_dfa. rewrite G1. pose proof (makes_dfa _ _ _ _ _ W Hg maps _ _ Hm input) as Ed. unfold parser_dfa in Ed.
  apply bind_val in Ed as (ee & Ee & Ed). rewrite Ee. cbn [bind]. injection Ed as ->. rewrite R2. reflexivity.
Qed.

Lemma cut_plain q x t' input d row : leaves_out q x t t' -> sentence rules start (map tk_ty input) -> reaches t input maps d -> d_finished d = false ->
  d_top d = q -> lookahead d = x -> nth_error (t_actions t) q = Some row ->
  exists m es, sentence rules start (map tk_ty input) /\ parses t input maps (POk m) /\ parses t' input maps (PErr (UnexpectedToken x es)).
Proof.
  intros G H1 H2 H3 H4 H5 E. pose proof G as (_ & _ & G3). destruct (G3 _ _ E) as (row' & E' & Hr). specialize (Hr x). rewrite Nat.eqb_refl, eqb_refl in Hr. cbn [andb] in Hr.
  eapply (cut_error q x t' input d (retab (t_actions t') d) (bm_keys row')); eauto. exists 1. cbn [travel retab d_table d_top]. rewrite H4, E'.
  unfold lookahead in *. cbn [retab d_buffer d_eof]. now rewrite H5, Hr.
Qed.

(** where a nonterminal is on top, its row has been asked for it *)
Lemma goto_asked input d n q qs it its : sentence rules start (map tk_ty input) -> reaches t input maps d -> d_finished d = false -> d_states d = n :: q :: qs -> d_items d = it :: its -> nonterm rules (tk_ty it) ->
  exists d1 pr d2, reaches t input maps d1 /\ d_finished d1 = false /\ term rules (lookahead d1) /\ entry (t_actions t) (d_top d1) (lookahead d1) = Some (Reduce (tk_ty it) pr) /\ dfa_pop d1 (tk_ty it) pr = Val d2 /\ d_top d2 = q.
Proof.
  intros H1 H2 H3 H4 H5 H6. destruct (Wp0 _ _ _ _ _ W Hg) as (p0 & Hp0 & _). destruct (makes_made _ _ _ _ _ W Hg _ _ _ Hm Hp0) as (sfk & lookf & X).
  pose proof (m_lr0 _ _ _ _ _ _ _ _ _ _ X) as L. pose proof (Wr _ _ _ _ _ Hg) as Er.
  inversion H2 as [d' E|d1 d' R [F1 F2]]; subst d'.
  - rewrite (makes_dfa _ _ _ _ _ W Hg maps _ _ Hm) in E. injection E as <-. discriminate.
  - pose proof (reaches_steps _ _ _ _ _ W Hg maps _ _ Hm _ _ R) as R1. destruct H1 as [_ H1]. rewrite <- Er in H1, H6, Heof |- *.
    destruct (steps_vinv _ _ _ _ _ _ _ _ L Heof maps _ _ R1 H1) as (Hs & Ht & _).
    assert (term (g_rules g) (lookahead d1)) as Hla.
    { unfold lookahead. unfold terms in Ht. destruct (d_buffer d1); [rewrite (si_eof _ _ _ _ _ _ Hs); auto|]. now inversion Ht. }
    pose proof (step_inv _ _ _ _ _ _ _ _ L maps _ _ _ Hs F2) as SR.
    inversion SR as [tok rest n1 Eb E|n1 Eb E|n1 E|E Eb|E Eb|a b E|m Em E|A pr q1 n1 fs f E Efs Ef Eq Et Eg|A pr q1 a b fs f E Efs Ef Eq Eg]; subst.
    + cbn in H5. injection H5 as -> _. unfold terms in Ht. rewrite Eb in Ht. inversion Ht; subst. contradiction.
    + apply (entry_goto _ _ _ _ _ _ _ _ L) in E as [E _]. contradiction.
    + discriminate.
    + cbn in H5. injection H5 as <- _. cbn [tk_ty]. exists d1, pr. eexists. split; auto. split; auto. split; auto. split; auto.
      unfold dfa_pop. assert (length (d_items d1) <? length (fst pr) = false) as ->.
      { apply Nat.ltb_ge. assert (nth_error (d_states d1) (length (fst pr)) <> None) as N by congruence.
        apply nth_error_Some in N. pose proof (LR.path_len _ _ _ _ (si_path _ _ _ _ _ _ Hs)) as Sp. rewrite map_length in Sp. lia. }
      rewrite (si_maps _ _ _ _ _ _ Hs), Efs. cbn [expect bind]. rewrite Ef. cbn [expect bind]. rewrite Eq. cbn [expect bind]. split; [reflexivity|]. cbn [d_top].
      cbn in H4. rewrite (skipn_nth_cons _ _ _ Eq) in H4. now injection H4 as _ ->.
Qed.

Lemma needed_goto q row A n t' : nth_error (t_actions t) q = Some row -> bm_get A row = Some (Goto n) -> leaves_out q A t t' ->
  exists input m es, sentence rules start (map tk_ty input) /\ parses t input maps (POk m) /\ parses t' input maps (PErr (UnexpectedToken A es)).
Proof.
  intros E1 E2 G. destruct (live_gotos _ _ _ _ E1 E2) as (input & d & qs & it & its & H1 & H2 & H3 & H4 & H5 & <-).
  assert (nonterm rules (tk_ty it)) as HA.
  { destruct (table_exact _ _ _ _ _ W Hg _ _ Hm) as (go & _ & _ & HT). destruct (HT _ _ E1) as (_ & HD & _).
    pose proof (makes_grammar _ _ _ _ _ W Hg _ _ Hm) as EG. pose proof (Wr _ _ _ _ _ Hg) as Er.
    pose proof (proj1 (HD _ _) (ex_intro _ _ (conj E2 (cell_leaf _ _ _ _ E1 E2)))) as D. inversion D. now rewrite EG, Er in *. }
  destruct (goto_asked _ _ _ _ _ _ _ H1 H2 H3 H4 H5 HA) as (d1 & pr & d2 & R1 & F1 & Ht & Een & Epop & Etop).
  exists input. pose proof G as (_ & _ & G3). destruct (G3 _ _ E1) as (row' & E' & Hr). specialize (Hr (tk_ty it)). rewrite Nat.eqb_refl, eqb_refl in Hr. cbn [andb] in Hr.
  eapply (cut_error q (tk_ty it) t' input d1 (retab (t_actions t') d2) (bm_keys row')); eauto. exists 2.
  unfold entry in Een. destruct (nth_error (t_actions t) (d_top d1)) as [r1|] eqn:Er1; [|discriminate]. destruct (G3 _ _ Er1) as (r1' & Er1' & Hr1).
  cbn [travel]. change (lookahead (retab (t_actions t') d1)) with (lookahead d1). cbn [retab d_table d_top]. rewrite Er1', Hr1.
  assert (eqb (lookahead d1) (tk_ty it) = false) as ->. { apply eqb_neq. intros E0. rewrite E0 in Ht. contradiction. }
  rewrite andb_false_r, Een. apply (pop_retab (t_actions t')) in Epop as [Epop _]. rewrite Epop. cbn [bind retab d_table d_top]. now rewrite Etop, E', Hr.
Qed.

Lemma needed q row x a t' : nth_error (t_actions t) q = Some row -> bm_get x row = Some a -> leaves_out q x t t' ->
  (exists n, a = Shift n \/ a = Goto n) \/ (dbg = true \/ only_terminals t) /\ (k = CLR \/ (k = LALR /\ grounded rules start eof t)) ->
  exists input m es, sentence rules start (map tk_ty input) /\ parses t input maps (POk m) /\ parses t' input maps (PErr (UnexpectedToken x es)).
Proof.
  intros E1 E2 G H. assert ((exists n, a = Goto n) \/ forall n, a <> Goto n) as [(n & ->)|Hn] by (destruct a; eauto; right; discriminate).
  - eapply needed_goto; eauto.
  - assert (exists input d, sentence rules start (map tk_ty input) /\ reaches t input maps d /\ d_finished d = false /\ d_top d = q /\ lookahead d = x) as (input & d & K1 & K2 & K3 & K4 & K5).
    { eapply live_plain; eauto. destruct H as [(n & [->| ->])|H]; eauto. now destruct (Hn n). }
    exists input. eapply cut_plain; eauto.
Qed.
End Live.
