(** Lalr's table accepts all sentences exactly if no completed item lacks a lookahead (C132). *)
From Coq Require Import List Bool Arith Lia.
From Verif Require Import BTree Model Base Spec SpecP Interface GrammarP FirstFollow Closure Canon ActTab LR Sound Complete Locality RunFacts CanonLR Prefix Merged Lalr LalrLR Agree Wrap Final Export LR1Spec ValidSpec StatesSpec StatesP Cores Handle HandleF Dilemma Valid Pass Textbook Dead CompareSpec Compare LiveSpec Live LostSpec.
Import ListNotations.

Section Auto.
Context {T : Type} {OT : Ord T}.
Variables (g : grammar T) (start eof : T) (p0 : production T).
Variable sts : list (state T).
Variable sfk : state T -> option nat.
Variable lookf : position T -> res (bset T).
Variable acts : acttable T.
Notation rules := (g_rules g).
Notation has := (has sts).
Notation hasl := (hasl sts lookf).
Notation path := (path sts sfk).
Hypothesis L : lr0 g start eof p0 sts sfk lookf acts.
Hypothesis Hone : forall i rhs, prod_at rules start i rhs -> (rhs, i) = p0.
Hypothesis He : term rules eof.
Hypothesis Hprod : productive rules.
Hypothesis Hc : conflicts acts = [].
Notation calls := (calls_for CLR rules start eof).

Lemma called_cell : (forall q qs xs A i u x, path (q :: qs) xs -> valid_look rules start eof (rev xs) A i u [] x -> hasl q A (u, i) (length u) x) ->
  forall q qs xs x s, path (q :: qs) xs -> term rules x -> calls (rev xs) x s -> exists a, entry acts q x = Some a /\ shape a s.
Proof.
  intros HE q qs xs x s P Hx C. assert (NC : ~ conflicted acts q x) by (eapply clean_no_conflict; eauto). destruct C as [B j u v V|A i u N V|i u V].
  - apply (valid_has _ _ _ _ _ _ _ _ L Hone) in V as (q2 & qs2 & P2 & H). rewrite rev_involutive in P2.
    pose proof (path_fun _ _ _ _ P _ P2) as E. injection E as <- <-.
    assert (nth_error (fst (u ++ x :: v, j)) (length u) = Some x) as E by (cbn; rewrite nth_error_app2, Nat.sub_diag; auto).
    destruct (l_tr _ _ _ _ _ _ _ _ L _ _ _ _ _ H E) as (n & Ht).
    destruct (has_entry _ _ _ _ _ _ _ _ L _ _ _ _ _ _ H E Ht) as [F|F]; [|contradiction].
    apply is_terminal_term in Hx. rewrite Hx in F. eexists. split; [exact F|exact Logic.I].
  - apply (HE _ _ _ _ _ _ _ P) in V. destruct (hasl_entry _ _ _ _ _ _ _ _ L _ _ (u, i) _ V) as [F|F]; [|contradiction].
    eexists. split; [exact F|]. destruct (eqb_spec A start) as [E|_]; [contradiction|]. split; auto.
  - apply (HE _ _ _ _ _ _ _ P) in V. destruct (hasl_entry _ _ _ _ _ _ _ _ L _ _ (u, i) _ V) as [F|F]; [|contradiction].
    eexists. split; [exact F|]. destruct (eqb_spec start start) as [_|E]; [exact Logic.I|contradiction].
Qed.

Lemma called_path pre x s : calls pre x s -> exists q qs, path (q :: qs) (rev pre).
Proof.
  assert (forall A i u v, valid_after rules start pre A i u v -> exists q qs, path (q :: qs) (rev pre)) as H.
  { intros A i u v V. apply (valid_has _ _ _ _ _ _ _ _ L Hone) in V as (q & qs & P & _). eauto. }
  intros [B j u v V|A i u N V|i u V]; eauto using completes_after.
Qed.

Section Run.
Context {M : Type}.
Variable maps : reductmap T M.
Notation sinv := (sinv eof sts sfk acts maps).
Notation terms := (terms g).

(** one round is what the cell says *)
Lemma round_cell (d d' : dfa T M) o : sinv d -> terms d -> d_finished d = false -> stepsto d (d', o) ->
  (exists a s, entry acts (d_top d) (lookahead d) = Some a /\ shape a s /\ does rules maps s d d' o) \/
  entry acts (d_top d) (lookahead d) = None /\ exists es, o = Err (UnexpectedToken (lookahead d) es).
Proof.
  intros Hs Hter Hf S. destruct (step_inv' _ _ _ _ _ _ _ _ L maps He _ _ _ Hs Hter S) as [SR H2].
  pose proof (terms_look g eof sts sfk acts maps He d Hs Hter) as Hx.
  destruct SR as [tok rest n Eb E|n Eb E|n E|E Eb|E Eb|a b E|m E1 E2|A pr q n fs f E F1 F2 F3 F4 F5|A pr q a b fs f E F1 F2 F3 F5].
  - left. assert (lookahead d = tk_ty tok) as -> by (unfold lookahead; now rewrite Eb). exists (Shift n), TShift. split; auto. split; [exact Logic.I|]. cbn. rewrite Eb. auto.
  - left. assert (lookahead d = eof) as -> by (unfold lookahead; rewrite Eb; apply (si_eof _ _ _ _ _ _ Hs)).
    exists (Shift n), TShift. split; auto. split; [exact Logic.I|]. cbn. now rewrite Eb.
  - exfalso. apply (entry_goto _ _ _ _ _ _ _ _ L) in E as [N _]. contradiction.
  - left. exists Acc, TAccept. split; auto. split; [exact Logic.I|]. cbn. now rewrite Eb.
  - left. exists Acc, TAccept. split; auto. split; [exact Logic.I|]. cbn. destruct (d_buffer d); [congruence|auto].
  - exfalso. eapply (clean_no_conflict acts); eauto. exists a, b. exact E.
  - right. split; [unfold entry; now rewrite E1|eauto].
  - left. pose proof E as E0. apply (entry_reduce _ _ _ _ _ _ _ _ L) in E0 as [_ H]. apply hasl_has in H.
    destruct (l_valid _ _ _ _ _ _ _ _ L _ _ _ _ H) as [PA _].
    exists (Reduce A pr), (TReduce A (snd pr)). split; auto. split; [split; auto|]. cbn. repeat split; auto. exists (fst pr), fs, f. auto.
  - exfalso. eapply (clean_no_conflict acts); eauto. exists a, b. exact F5.
Qed.

Lemma cell_round (d : dfa T M) a s : covers rules maps -> sinv d -> terms d -> d_finished d = false -> entry acts (d_top d) (lookahead d) = Some a -> shape a s ->
  exists d' o, stepsto d (d', o) /\ does rules maps s d d' o.
Proof.
  intros Hcov Hs Hter Hf E Sh. destruct (step_total' _ _ _ _ _ _ _ _ L maps d Hs (or_introl Hcov)) as (d' & o & S & _). exists d', o. split; auto.
  destruct (round_cell _ _ _ Hs Hter Hf S) as [(a' & s' & E' & Sh' & D)|[E' _]]; [|congruence].
  rewrite E in E'. injection E' as <-. now rewrite (shape_fun _ _ _ Sh Sh').
Qed.

(** what a run does that ends well is what the grammar calls for *)
Lemma accepted_calls (d : dfa T M) r : start_fresh rules start -> runs d r -> snd r = Ok -> sinv d -> terms d -> d_finished d = false ->
  rms rules [start] (rev (map tk_ty (d_items d)) ++ map tk_ty (d_buffer d)) /\
  exists a s d', entry acts (d_top d) (lookahead d) = Some a /\ shape a s /\ stepsto d (d', Ok) /\ does rules maps s d d' Ok /\ calls (rev (map tk_ty (d_items d))) (lookahead d) s.
Proof.
  intros SF R. revert d r R.
  refine (runs_ind (fun d r => snd r = Ok -> sinv d -> terms d -> d_finished d = false -> rms rules [start] (rev (map tk_ty (d_items d)) ++ map tk_ty (d_buffer d)) /\
    exists a s d', entry acts (d_top d) (lookahead d) = Some a /\ shape a s /\ stepsto d (d', Ok) /\ does rules maps s d d' Ok /\ calls (rev (map tk_ty (d_items d))) (lookahead d) s) _ _ _).
  1: intros; congruence. 1: intros; discriminate.
  intros d d' r Hf S R IH Ho Hs Hter _. specialize (IH Ho).
  destruct (step_inv' _ _ _ _ _ _ _ _ L maps He _ _ _ Hs Hter S) as [_ H2]. destruct (H2 eq_refl) as [Hs' Hter'].
  pose proof (si_path _ _ _ _ _ _ Hs) as P. pose proof (si_top _ _ _ _ _ _ Hs) as Htop.
  destruct (d_states d) as [|q0 qs] eqn:Eqs; [discriminate|]. simpl in Htop. injection Htop as ->.
  destruct (round_cell _ _ _ Hs Hter Hf S) as [(a & s & E & Sh & D)|[_ (es & E)]]; [|discriminate].
  assert (G : rms rules [start] (rev (map tk_ty (d_items d)) ++ map tk_ty (d_buffer d)) /\ calls (rev (map tk_ty (d_items d))) (lookahead d) s).
  2: { destruct G as [G1 G2]. split; auto. exists a, s, d'. auto. }
  destruct s as [|A i|]; cbn in D.
  - destruct (d_buffer d) as [|tok rest] eqn:Eb; [discriminate|]. destruct D as (_ & D1 & D2 & D3). destruct (IH Hs' Hter' D3) as [F _]. split.
    + rewrite D1, D2 in F. cbn [map rev] in F. rewrite <- app_assoc in F. exact F.
    + destruct a as [n| | | |]; try contradiction. apply (entry_shift _ _ _ _ _ _ _ _ L) in E as [_ (row & [B pr p l] & K1 & K2 & K3 & _)]. rewrite ptop_nth in K3.
      assert (H : has (d_top d) B pr p) by (exists row, l; auto). apply (has_valid_after _ _ _ _ _ _ _ _ L Hprod _ _ _ _ _ _ P) in H. rewrite (skipn_nth_cons _ _ _ K3) in H. econstructor; eauto.
  - destruct D as (_ & D1 & D2 & rhs & fs & f & D3 & _ & _ & D4). destruct (IH Hs' Hter' D2) as [F _]. rewrite D1, D4 in F. cbn [map rev tk_ty] in F.
    set (k := length rhs) in *. rewrite <- app_assoc in F. cbn [app] in F.
    destruct a as [| |B pr| |]; try contradiction. destruct Sh as [-> Ei]. apply (entry_reduce _ _ _ _ _ _ _ _ L) in E as [N H]. apply hasl_has in H.
    apply (has_valid_after _ _ _ _ _ _ _ _ L Hprod _ _ _ _ _ _ P) in H. rewrite firstn_all, skipn_all in H. destruct H as (PA & b & w & _ & _ & Eb). rewrite app_nil_r, Ei in PA.
    assert (rhs = fst pr) as Er by (eapply prod_at_fun'; eauto). rewrite <- Er in Eb.
    assert (Ek : rev (map tk_ty (skipn k (d_items d))) = b).
    { apply (f_equal (@rev T)) in Eb. rewrite rev_involutive, rev_app_distr in Eb. rewrite <- skipn_map, Eb.
      rewrite skipn_app, skipn_all2, rev_length by (rewrite rev_length; unfold k; lia). unfold k. rewrite Nat.sub_diag. cbn [skipn app]. now rewrite rev_involutive. }
    rewrite Ek in F. rewrite Eb. split.
    + rewrite <- app_assoc. eapply rms_trans; [exact F|]. eapply rms_snoc; [apply rms_refl|]. exact (rm_intro _ b A i rhs _ D3 Hter).
    + apply (calls_reduce _ _ _ _ _ _ A i rhs N). cbn. split; [now rewrite app_nil_r|]. exists b, (map tk_ty (d_buffer d)). split; auto. split; [exact Hter|]. split; auto.
      unfold lookahead. destruct (d_buffer d); auto. cbn. symmetry. apply (si_eof _ _ _ _ _ _ Hs).
  - destruct D as (_ & _ & D3). destruct (d_buffer d) as [|tok rest] eqn:Eb; [|discriminate]. destruct a; try contradiction.
    apply (entry_acc _ _ _ _ _ _ _ _ L) in E as ([u i] & H). apply hasl_has in H.
    apply (has_valid_after _ _ _ _ _ _ _ _ L Hprod _ _ _ _ _ _ P) in H. cbn [fst snd] in H. rewrite firstn_all, skipn_all in H. destruct H as (PA & b & w & R1 & Tw & Eq).
    rewrite app_nil_r in PA. apply fresh_rms in R1 as [-> ->]; auto; [|eapply prod_nonterm; eauto]. cbn [app] in Eq. rewrite Eq. cbn [map]. rewrite app_nil_r. split.
    + eapply rms_snoc; [apply rms_refl|]. pose proof (rm_intro rules [] start i u [] PA (Forall_nil _)) as H. cbn [app] in H. now rewrite app_nil_r in H.
    + econstructor. split; [rewrite app_nil_r; exact PA|]. exists [], []. split; [apply rms_refl|]. split; auto. split; auto. unfold lookahead. rewrite Eb. symmetry. apply (si_eof _ _ _ _ _ _ Hs).
Qed.
End Run.
End Auto.

Lemma steps_after {T} {OT : Ord T} {M} (d d' : dfa T M) r : steps d d' -> runs d r -> runs d' r.
Proof.
  induction 1 as [|d d1 d2 Ef S H IH]; auto. intros R. apply IH. apply runs_inv in R as [[E _]|(_ & e & o & S' & R)]; [congruence|].
  pose proof (stepsto_fun _ _ _ S S') as [= <- <-]. exact R.
Qed.

Lemma clr_lalr : CLR <> LALR. Proof. discriminate. Qed.

Section LostF.
Context {T : Type} {OT : Ord T}.
Variables (dbg : bool) (start eof : T) (g : grammar T).
Notation rules := (g_rules g).
Hypothesis W : wf_rules rules.
Hypothesis Hg : grammar_new dbg start rules eof = Val g.
Variables tl tc : tabler T.
Hypothesis Hl : makes LALR dbg g tl.
Hypothesis Hcm : makes CLR dbg g tc.
Hypothesis He : term rules eof.
Hypothesis Hs0 : dbg = true \/ single_start rules start.
Hypothesis Ho : dbg = true \/ only_terminals tl.
Hypothesis Hoc : dbg = true \/ only_terminals tc.
Hypothesis Hp : productive rules.
Hypothesis Hfr : start_fresh rules start.
Hypothesis Hcl : conflicts (t_actions tl) = [].
Notation calls := (calls_for CLR rules start eof).

Lemma lalr_auto : exists p0 sfk, lr0 g start eof p0 (t_states tl) sfk clr_look (t_actions tl) /\ (forall i rhs, prod_at rules start i rhs -> (rhs, i) = p0) /\
  (forall q, q < length (t_states tl) -> exists qs xs, path (t_states tl) sfk (q :: qs) xs) /\
  (forall q q', q < length (t_states tl) -> q' < length (t_states tl) -> alike (t_states tl) q q' -> q = q') /\
  forall q A i u x, hasl (t_states tl) clr_look q A (u, i) (length u) x <-> item_look tl q A i u [] x.
Proof.
  assert (single_start rules start) as Hs by (destruct Hs0; eauto using debug_single).
  destruct (makes_terminals _ _ _ _ _ W Hg _ _ Hl Ho) as (t & Ht & _). pose proof (tmakes_facts _ _ _ _ _ W Hg _ Ht) as F.
  destruct (makes_with _ _ _ _ _ W Hg _ _ _ Ht Hl) as (fm & p & Em). destruct (Wp0 _ _ _ _ _ W Hg) as (p0 & Hp0 & _).
  destruct (lalr_inv _ _ _ _ _ W Hg _ F _ _ _ Em) as (_ & _ & _ & E2 & _).
  pose proof (lalr_lr0 _ _ _ _ _ W Hg _ F _ _ _ Em _ Hp0) as L. pose proof (lalr_reach _ _ _ _ _ W Hg _ F _ _ _ Em) as Hreach.
  pose proof (lalr_inj _ _ _ _ _ W Hg _ _ _ _ F Em) as Hinj. rewrite <- E2 in L, Hreach, Hinj.
  exists p0, (sfk_lalr p). split; auto. split; [exact (one_start _ _ _ _ _ W Hg _ Hp0 Hs)|]. split; auto. split; auto. intros q A i u x. rewrite clr_hasl. split.
  - intros (row & l & E & H & E4). exists row, (mkPos A (u, i) (length u) l). cbn. rewrite app_nil_r. auto 8.
  - intros (row & [A' pr k l] & E & H & E1 & E3 & E4 & E5). cbn in *. rewrite app_nil_r in E3. subst. eauto.
Qed.

Definition looks : Prop := forall q qs xs, stack_path tl (q :: qs) xs -> forall A i u x, valid_look rules start eof (rev xs) A i u [] x -> item_look tl q A i u [] x.

Lemma kept_valid : keeps rules start eof tl <-> looks.
Proof.
  destruct lalr_auto as (p0 & sfk & L & H1 & Hreach & Hinj & HL). destruct (lalr_exact _ _ _ _ _ W Hg _ Hl He Hs0 Ho Hp) as [HX _]. split.
  - intros K q qs xs P A i u x V. apply K, (HX _ _ _ P). exists (rev xs). split; auto. intros ? ? ? ?. reflexivity.
  - intros K q A i u x V. destruct (passed_rsf _ _ _ _ _ _ _ L Hp Hreach _ _ _ _ _ _ V) as (HA & qs & Xs & a & w & P & R & E & N).
    apply (K q qs Xs); [eapply path_moves; eauto|]. split; auto. exists a, w. repeat split; eauto using rsf_rms, rsf_term.
Qed.

Lemma clr_det : conflicts (t_actions tc) = [] <-> (forall pre x s s', term rules x -> calls pre x s -> calls pre x s' -> s = s').
Proof.
  assert (single_start rules start) as Hs by (destruct Hs0; eauto using debug_single).
  destruct (makes_terminals _ _ _ _ _ W Hg _ _ Hcm Hoc) as (t & Ht & _ & _ & Hf & Hw). pose proof (tmakes_facts _ _ _ _ _ W Hg _ Ht) as F.
  destruct (makes_with _ _ _ _ _ W Hg _ _ _ Ht Hcm) as (fm & Em). destruct (Wp0 _ _ _ _ _ W Hg) as (p0 & Hp0 & _).
  pose proof (clr_lr0 _ _ _ _ _ W Hg _ F _ _ Em _ Hp0) as L.
  assert (Q : forall q A pr k x, hasl (t_states tc) clr_look q A pr k x -> term rules x).
  { intros q A pr k x H. exact (clr_look_Q _ _ _ _ _ W Hg _ F _ _ _ _ _ _ _ _ Em (Qterm _ _ _ _ _ _ F He Hf) H). }
  pose proof (looks_valid _ _ _ _ _ W Hg _ Hcm He Hs0 Hoc Hp) as HI.
  apply (clean_det CLR _ _ _ _ _ _ _ _ L (one_start _ _ _ _ _ W Hg _ Hp0 Hs) Hp Q (clr_reach _ _ _ _ _ W Hg _ _ _ F Em)).
  intros q qs xs A i u x P. unfold completes. rewrite <- (HI q qs xs).
  2: { eapply path_moves; eauto. }
  rewrite clr_hasl. split.
  + intros (row & l & E & H & E4). exists row, (mkPos A (u, i) (length u) l). cbn. rewrite app_nil_r. auto 8.
  + intros (row & [A' pr p l] & E & H & E1 & E2 & E3 & E4). cbn in *. rewrite app_nil_r in E2. subst. eauto.
Qed.

Lemma looks_clean : looks -> conflicts (t_actions tc) = [].
Proof.
  intros K. apply clr_det. destruct lalr_auto as (p0 & sfk & L & H1 & Hreach & Hinj & HL). intros pre x s s' Hx C C'.
  destruct (called_path _ _ _ _ _ _ _ _ L H1 _ _ _ C) as (q & qs & P).
  assert (HE : forall q qs xs A i u x, path (t_states tl) sfk (q :: qs) xs -> valid_look rules start eof (rev xs) A i u [] x -> hasl (t_states tl) clr_look q A (u, i) (length u) x).
  { intros q1 qs1 xs A i u x1 P1 V. apply HL. eapply K; eauto. eapply path_moves; eauto. }
  rewrite <- (rev_involutive pre) in C, C'.
  destruct (called_cell _ _ _ _ _ _ _ _ L H1 Hcl HE _ _ _ _ _ P Hx C) as (a & E1 & S1).
  destruct (called_cell _ _ _ _ _ _ _ _ L H1 Hcl HE _ _ _ _ _ P Hx C') as (b & E2 & S2). rewrite E1 in E2. injection E2 as <-. exact (shape_fun _ _ _ S1 S2).
Qed.

Section Run.
Context {M : Type}.
Variable maps : reductmap T M.
Hypothesis Hcov : covers rules maps.

Lemma does_twin s (d1 d2 d1' d2' : dfa T M) o1 o2 : does rules maps s d1 d1' o1 -> does rules maps s d2 d2' o2 -> twin d1 d2 -> d_finished d1 = false ->
  o1 = o2 /\ (o1 = Ok -> twin d1' d2').
Proof.
  intros D1 D2 (Ti & Tf & Tb) F. specialize (Tb F). destruct s as [|A i|]; cbn in D1, D2.
  - rewrite Tb in D1. destruct (d_buffer d2) as [|tok rest]; [subst; split; auto; discriminate|].
    destruct D1 as (-> & b1 & i1 & f1'). destruct D2 as (-> & b2 & i2 & f2'). split; auto. intros _. split; [congruence|]. split; congruence.
  - destruct D1 as (-> & b1 & f1' & rhs & fs & f & Q1 & Q2 & Q3 & i1). destruct D2 as (-> & b2 & f2' & rhs' & fs' & f' & Q1' & Q2' & Q3' & i2).
    assert (rhs = rhs') as <- by (eapply prod_at_fun'; eauto). assert (fs = fs') as <- by congruence. assert (f = f') as <- by congruence.
    split; auto. intros _. split; [congruence|]. split; congruence.
  - destruct D1 as (f1' & i1 & ->). destruct D2 as (f2' & i2 & ->). rewrite Tb. split; auto. intros _. split; [congruence|]. split; [congruence|]. intros. congruence.
Qed.

Lemma twin_look input (d1 d2 : dfa T M) : reaches tc input maps d1 -> reaches tl input maps d2 -> twin d1 d2 -> d_finished d1 = false -> lookahead d1 = lookahead d2.
Proof.
  intros R1 R2 (Ti & Tf & Tb) F. unfold lookahead. rewrite (Tb F). destruct (d_buffer d2); auto.
  rewrite (reaches_eof _ _ _ _ _ W Hg maps _ tc Hcm _ _ R1). now rewrite (reaches_eof _ _ _ _ _ W Hg maps _ tl Hl _ _ R2).
Qed.

Lemma step_reaches t input (d d' : dfa T M) : reaches t input maps d -> d_finished d = false -> stepsto d (d', Ok) -> reaches t input maps d'.
Proof. intros R F (f & S). eapply reaches_round; [exact R|]. split; eauto. Qed.

(** a good round of Clr's driver does the one thing that is called for *)
Lemma clr_does input (d d' : dfa T M) : Forall (term rules) (map tk_ty input) -> reaches tc input maps d -> d_finished d = false -> stepsto d (d', Ok) ->
  exists s, calls (rev (map tk_ty (d_items d))) (lookahead d) s /\ (forall s', calls (rev (map tk_ty (d_items d))) (lookahead d) s' -> s' = s) /\ does rules maps s d d' Ok.
Proof.
  intros I R F S.
  destruct (driver_textbook _ _ _ _ _ W Hg _ _ Hcm (or_introl clr_lalr) He Hs0 Hoc Hp _ maps _ _ Hcov I R F _ _ eq_refl eq_refl) as (f1 & e & o & X & Y).
  assert ((e, o) = (d', Ok)) as [= -> ->] by (eapply stepsto_fun; [exists f1; exact X|exact S]).
  destruct Y as [[_ (a & b & Y)]|[[_ (es & Y & _)]|Y]]; [discriminate|discriminate|exact Y].
Qed.

Lemma kept_runs input d1 x : looks -> Forall (term rules) (map tk_ty input) -> runs d1 x -> snd x = Ok ->
  forall d2, reaches tc input maps d1 -> reaches tl input maps d2 -> twin d1 d2 -> exists y, runs d2 y /\ snd y = Ok /\ d_items (fst x) = d_items (fst y).
Proof.
  intros K I R. destruct lalr_auto as (p0 & sfk & L & H1 & Hreach & Hinj & HL). revert d1 x R.
  refine (runs_ind (fun d1 x => snd x = Ok -> forall d2, reaches tc input maps d1 -> reaches tl input maps d2 -> twin d1 d2 -> exists y, runs d2 y /\ snd y = Ok /\ d_items (fst x) = d_items (fst y)) _ _ _).
  1: intros d F _ d2 R1 R2 Tw. 2: intros; discriminate. 2: intros d d' r F S R IH Hr d2 R1 R2 Tw.
  - exists (d2, Ok). destruct Tw as (Ti & Tf & _). split; [|auto]. exists 1. simpl. now rewrite <- Tf, F.
  - destruct (clr_does _ _ _ I R1 F S) as (s & C & U & D1). pose proof (reaches_steps _ _ _ _ _ W Hg maps _ _ Hl _ _ R2) as St.
    destruct (steps_vinv _ _ _ _ _ _ _ _ L He maps _ _ St I) as (Hsi & Hter & _).
    assert (d_finished d2 = false) as F2 by (destruct Tw as (_ & Tf & _); congruence).
    pose proof (si_path _ _ _ _ _ _ Hsi) as P. pose proof (si_top _ _ _ _ _ _ Hsi) as Htop.
    destruct (d_states d2) as [|q0 qs] eqn:Eqs; [discriminate|]. simpl in Htop. injection Htop as ->.
    rewrite (twin_look _ _ _ R1 R2 Tw F), (proj1 Tw) in C.
    destruct (called_cell _ _ _ _ _ _ _ _ L H1 Hcl (fun q qs xs A i u x P V => proj2 (HL q A i u x) (K q qs xs (path_moves _ _ _ _ _ _ _ _ _ L P) A i u x V)) _ _ _ _ _ P (terms_look g eof _ sfk _ maps He d2 Hsi Hter) C) as (a & E & Sh).
    destruct (cell_round _ _ _ _ _ _ _ _ L He Hcl maps _ _ _ Hcov Hsi Hter F2 E Sh) as (d2' & o & S2 & D2).
    destruct (does_twin _ _ _ _ _ _ _ D1 D2 Tw F) as [<- Tw']. specialize (Tw' eq_refl).
    destruct (IH Hr d2') as (y & Y & HY); auto; [eapply step_reaches; eauto|eapply step_reaches; eauto|]. exists y. split; auto. eapply runs_step; eauto.
Qed.

Lemma kept_parses input m : looks -> Forall (term rules) (map tk_ty input) -> parses tc input maps (POk m) -> parses tl input maps (POk m).
Proof.
  intros K I Hr. apply (parses_runs _ _ _ _ _ W Hg maps _ _ Hcm) in Hr as (d' & o & R & E). destruct o; [|discriminate].
  destruct (kept_runs input _ _ K I R eq_refl (dfa_new input (t_actions tl) maps eof)) as ([d2 o2] & R2 & H & HI).
  - constructor. apply (makes_dfa _ _ _ _ _ W Hg maps _ _ Hcm).
  - constructor. apply (makes_dfa _ _ _ _ _ W Hg maps _ _ Hl).
  - repeat split.
  - cbn in H, HI. subst o2. apply (parses_runs _ _ _ _ _ W Hg maps _ _ Hl). exists d2, Ok. split; auto. now rewrite <- HI.
Qed.

(** an input Lalr accepts: it does what Clr does *)
Lemma accepted_twin input m d : Forall (term rules) (map tk_ty input) -> parses tl input maps (POk m) -> reaches tc input maps d ->
  exists d2 r, reaches tl input maps d2 /\ twin d d2 /\ runs d2 r /\ snd r = Ok.
Proof.
  intros I Hr. apply (parses_runs _ _ _ _ _ W Hg maps _ _ Hl) in Hr as (d' & o & R & E). destruct o; [|discriminate].
  destruct lalr_auto as (p0 & sfk & L & H1 & Hreach & Hinj & HL).
  induction 1 as [d Ed|d e H (d2 & r & R2 & Tw & Rr & Er) [F (f & S)]].
  - rewrite (makes_dfa _ _ _ _ _ W Hg maps _ _ Hcm) in Ed. injection Ed as <-. exists (dfa_new input (t_actions tl) maps eof), (d', Ok).
    split; [constructor; apply (makes_dfa _ _ _ _ _ W Hg maps _ _ Hl)|]. split; [repeat split|]. auto.
  - assert (stepsto d (e, Ok)) as S' by (exists f; exact S). destruct (clr_does _ _ _ I H F S') as (s & C & U & D1).
    pose proof (reaches_steps _ _ _ _ _ W Hg maps _ _ Hl _ _ R2) as St. destruct (steps_vinv _ _ _ _ _ _ _ _ L He maps _ _ St I) as (Hsi & Hter & _).
    assert (d_finished d2 = false) as F2 by (destruct Tw as (_ & Tf & _); congruence).
    destruct (accepted_calls _ _ _ _ _ _ _ _ L He Hp Hcl maps _ _ Hfr Rr Er Hsi Hter F2) as (_ & a & s' & d2' & E1 & Sh & S2 & D2 & C2).
    rewrite <- (proj1 Tw), <- (twin_look _ _ _ H R2 Tw F) in C2. apply U in C2. subst s'.
    destruct (does_twin _ _ _ _ _ _ _ D1 D2 Tw F) as [_ Tw']. exists d2', r. split; [eapply step_reaches; eauto|]. split; auto. split; auto.
    apply (steps_after d2); auto. eapply steps_cons; eauto. constructor.
Qed.
End Run.

Lemma accepts_looks : conflicts (t_actions tc) = [] -> (forall input, sentence rules start (map tk_ty input) -> validates tl input true) -> looks.
Proof.
  intros Hc HA q qs xs P A i u x V. assert (single_start rules start) as Hs by (destruct Hs0; eauto using debug_single).
  pose proof (empty_covers _ _ _ _ _ W Hg) as Hcov. destruct lalr_auto as (p0 & sfk & L & H1 & Hreach & Hinj & HL).
  destruct (live_look _ _ _ _ _ W Hg (empty_map g) _ _ Hcm He (or_introl clr_lalr) Hfr Hs Hp Hcov Hc tt _ _ _ _ _ V) as (input & d & S & R & F & E1 & E2).
  pose proof (proj2 S) as I. pose proof (HA _ S) as Hv. apply (validates_parses _ _ _ _ _ W Hg _ _ _ _ Hl) in Hv as ([m|] & Hv & [=]).
  destruct (accepted_twin _ Hcov _ _ _ I Hv R) as (d2 & r & R2 & Tw & Rr & Er).
  pose proof (reaches_steps _ _ _ _ _ W Hg _ _ _ Hl _ _ R2) as St. destruct (steps_vinv _ _ _ _ _ _ _ _ L He _ _ _ St I) as (Hsi & Hter & _).
  assert (d_finished d2 = false) as F2 by (destruct Tw as (_ & Tf & _); congruence).
  destruct (accepted_calls _ _ _ _ _ _ _ _ L He Hp Hcl _ _ _ Hfr Rr Er Hsi Hter F2) as (_ & a & s & d2' & K1 & Sh & _ & _ & C2).
  pose proof (terms_look g eof _ sfk _ _ He d2 Hsi Hter) as Hx. pose proof (twin_look _ _ _ _ R R2 Tw F) as EL.
  rewrite <- (proj1 Tw), <- EL, E1, E2 in C2. rewrite <- EL, E2 in K1, Hx.
  pose proof (si_path _ _ _ _ _ _ Hsi) as P2. pose proof (si_top _ _ _ _ _ _ Hsi) as Htop.
  destruct (d_states d2) as [|q0 qs0] eqn:Eqs; [discriminate|]. simpl in Htop. injection Htop as ->.
  rewrite <- (proj1 Tw) in P2. rewrite <- (rev_involutive (map tk_ty (d_items d))), E1, rev_involutive in P2. apply (moves_path _ _ _ _ _ _ _ _ _ L) in P.
  pose proof (path_fun _ _ _ _ P _ P2) as E. injection E as -> ->. apply HL.
  pose proof (proj1 V) as PA. rewrite app_nil_r in PA. destruct (ord_dec A start) as [->|N].
  - assert (calls (rev xs) x TAccept) as C by (econstructor; exact V). pose proof (proj1 clr_det Hc _ _ _ _ Hx C2 C) as ->.
    destruct a; try contradiction. apply (entry_acc _ _ _ _ _ _ _ _ L) in K1 as ([u' i'] & K1). pose proof K1 as K2. apply hasl_has in K2.
    destruct (l_valid _ _ _ _ _ _ _ _ L _ _ _ _ K2) as [PB _]. pose proof (H1 _ _ PA) as X1. pose proof (H1 _ _ PB) as X2. cbn [fst snd] in *. rewrite <- X1 in X2. injection X2 as -> ->. exact K1.
  - assert (calls (rev xs) x (TReduce A i)) as C by (exact (calls_reduce CLR _ _ _ _ _ A i u N V)). pose proof (proj1 clr_det Hc _ _ _ _ Hx C2 C) as ->.
    destruct a as [| |B [u' i']| |]; try contradiction. destruct Sh as [-> Ei]. cbn in Ei. subst i'. apply (entry_reduce _ _ _ _ _ _ _ _ L) in K1 as [_ K1].
    pose proof K1 as K2. apply hasl_has in K2. destruct (l_valid _ _ _ _ _ _ _ _ L _ _ _ _ K2) as [PB _]. cbn [fst snd] in *.
    now rewrite (prod_at_fun' _ _ _ _ _ PA PB).
Qed.

Lemma keeps_accepts : keeps rules start eof tl <-> LR1 rules start eof /\ forall input, sentence rules start (map tk_ty input) -> validates tl input true.
Proof.
  rewrite kept_valid. destruct (clr_LR1 _ _ _ _ _ W Hg _ Hcm He Hs0) as [C1 C2]. split.
  - intros K. pose proof (looks_clean K) as Hc. split; auto. intros input S. pose proof (empty_covers _ _ _ _ _ W Hg) as Hcov.
    destruct (exact_language _ _ _ _ _ W Hg _ _ Hcm (or_introl clr_lalr) He Hfr Hs0 Hc) as [X _].
    destruct (proj2 (X _ _ input Hcov) S) as (m & Hm). apply (validates_parses _ _ _ _ _ W Hg _ _ _ _ Hl). exists (POk m). split; auto.
    apply (kept_parses _ Hcov); auto. apply S.
  - intros [K1 K2]. apply accepts_looks; auto.
Qed.

(** ... and then it yields the values Clr yields *)
Lemma keeps_same : keeps rules start eof tl -> forall M (maps : reductmap T M) input, covers rules maps -> Forall (term rules) (map tk_ty input) ->
  forall m, parses tl input maps (POk m) <-> parses tc input maps (POk m).
Proof.
  intros K%kept_valid M maps input Hcov I m. split; intros H; [|now apply kept_parses].
  pose proof H as H0. apply (parses_runs _ _ _ _ _ W Hg maps _ _ Hl) in H0 as (d' & o & R & E). destruct o; [|discriminate].
  destruct lalr_auto as (p0 & sfk & L & H1 & Hreach & Hinj & HL).
  destruct (accepted_calls _ _ _ _ _ _ _ _ L He Hp Hcl maps _ _ Hfr R eq_refl (dfa_new_sinv _ _ _ _ _ _) I eq_refl) as [S _].
  destruct (exact_language _ _ _ _ _ W Hg _ _ Hcm (or_introl clr_lalr) He Hfr Hs0 (looks_clean K)) as [X _].
  destruct (proj2 (X _ _ input Hcov)) as (m' & Hm').
  { split; auto. now apply rms_derives in S. }
  pose proof (kept_parses _ Hcov _ _ K I Hm') as H2. apply (parses_runs _ _ _ _ _ W Hg maps _ _ Hl) in H2 as (e' & o' & R' & E').
  pose proof (runs_fun _ _ _ R R') as [= <- <-]. rewrite <- E in E'. injection E' as <-. exact Hm'.
Qed.
End LostF.

Lemma clr_beside {T} {OT : Ord T} dbg start eof rules (g : grammar T) (W : wf_rules rules) (Hg : grammar_new dbg start rules eof = Val g) k t : makes k dbg g t -> dbg = true \/ only_terminals t ->
  (exists tc, makes CLR dbg g tc) /\ forall tc, makes CLR dbg g tc -> dbg = true \/ only_terminals tc.
Proof.
  intros Hm Ho. destruct (makes_first _ _ _ _ _ W Hg _ _ Hm) as (t1 & Ht & E1 & E2 & E3). split.
  - destruct (with_table_total _ _ _ _ _ W Hg CLR t1 Ht) as (N & tc & _ & H). eauto.
  - intros tc Hc. destruct Ho as [Ho|Ho]; auto. right. destruct (makes_first _ _ _ _ _ W Hg _ _ Hc) as (t2 & Ht2 & F1 & F2 & F3).
    rewrite (tmakes_unique _ _ _ _ Ht Ht2) in E1, E2. unfold only_terminals in *. rewrite F1, F2, F3. now rewrite E1, E2, E3 in Ho.
Qed.

Section Statements.
Context {T : Type} {OT : Ord T}.
Variables (dbg : bool) (start eof : T) (rules : rulemap T) (g : grammar T).
Hypothesis W : wf_rules rules.
Hypothesis Hg : grammar_new dbg start rules eof = Val g.
Variable t : tabler T.
Hypothesis Hl : makes LALR dbg g t.
Hypothesis He : term rules eof.
Hypothesis Hfr : start_fresh rules start.
Hypothesis Hs0 : dbg = true \/ single_start rules start.
Hypothesis Ho : dbg = true \/ only_terminals t.
Hypothesis Hp : productive rules.

Lemma lost_looks : keeps rules start eof t <->
  forall q qs xs, stack_path t (q :: qs) xs -> forall A i u x, valid_look rules start eof (rev xs) A i u [] x -> item_look t q A i u [] x.
Proof. clear Hfr. pose proof (Er _ _ _ _ _ Hg) as ER. destruct ER. apply (kept_valid dbg); auto. Qed.

Hypothesis Hcl : conflicts (t_actions t) = [].

Lemma lost_exact : keeps rules start eof t <-> LR1 rules start eof /\ forall input, sentence rules start (map tk_ty input) -> validates t input true.
Proof.
  destruct (clr_beside _ _ _ _ _ W Hg _ _ Hl Ho) as [(tc & Hc) Hoc]. specialize (Hoc _ Hc). pose proof (Er _ _ _ _ _ Hg) as ER. destruct ER. apply (keeps_accepts dbg start eof g W Hg t tc); auto.
Qed.

Lemma lost_same : keeps rules start eof t -> forall tc, makes CLR dbg g tc -> conflicts (t_actions tc) = [] /\
  forall M (maps : reductmap T M) input, covers rules maps -> Forall (term rules) (map tk_ty input) -> forall m, parses t input maps (POk m) <-> parses tc input maps (POk m).
Proof.
  intros K tc Hc. destruct (clr_beside _ _ _ _ _ W Hg _ _ Hl Ho) as [_ Hoc]. specialize (Hoc _ Hc). pose proof (Er _ _ _ _ _ Hg) as ER. destruct ER. split.
  - apply (looks_clean dbg start eof g W Hg t tc); auto. apply (kept_valid dbg); auto.
  - apply (keeps_same dbg start eof g W Hg t tc); auto.
Qed.
End Statements.
