(** The facts about tables and runs, restated for [Parser::new]/[parse]/[validate]. *)
From Coq Require Import List Bool Arith Lia Relations.
From Verif Require Import BTree Model Base Spec SpecP GrammarP FirstFollow Closure Canon ActTab LR Sound CanonLR Merged Lalr LalrLR
  Agree Complete Locality Prefix Halt RunFacts Interface.
Import ListNotations.

Section Wrap.
Context {T : Type} {OT : Ord T}.
Variables (dbg : bool) (start eof : T) (rules : rulemap T) (g : grammar T).
Hypothesis W : wf_rules rules.
Hypothesis Hg : grammar_new dbg start rules eof = Val g.

Lemma Wr : g_rules g = rules.
Proof. exact (proj1 (grammar_new_inv _ _ _ _ _ Hg)). Qed.

Lemma Wp0 : exists p0, g_basis g = mkPos start p0 0 [eof] /\ prod_at rules start 0 (fst p0) /\ snd p0 = 0.
Proof.
  destruct (grammar_new_inv _ _ _ _ _ Hg) as (_ & r & p0 & ps & Hr & Hp & Hb & _). exists p0. split; auto.
  destruct W as [_ Hw]. destruct (Hw _ _ Hr) as (_ & l & El). destruct l as [|x l]; [simpl in *; congruence|].
  simpl in El. rewrite Hp in El. injection El as -> ->. split; auto. exists r, 0. rewrite Hp. auto.
Qed.

Lemma makes_tabler k t' : makes k dbg g t' -> exists t, tabler_makes dbg g t /\ tabler_facts dbg start eof rules g t /\
  exists fuel, match k with
  | SLR => slr_with_table dbg fuel t = Val t'
  | CLR => clr_with_table dbg fuel t = Val t'
  | LALR => exists p, lalr_with_table dbg fuel t = Val (t', p)
  end.
Proof.
  destruct k; simpl; [intros (fuel & E)|intros (fuel & E)|intros (fuel & p & E)];
    apply bind_val in E as (t & E1 & E2); exists t; (split; [exists fuel; exact E1|]);
    (split; [eapply tabler_new_facts; eauto|]); exists fuel; eauto.
Qed.

Lemma inside_leaves (a b : action T) : inside b a <-> In b (leaves a).
Proof.
  induction a as [n|n|x p| |a1 IH1 a2 IH2]; simpl; try (intuition congruence).
  rewrite in_app_iff, IH1, IH2. reflexivity.
Qed.

Record made (k : method) (t' : tabler T) (p0 : production T) (sts : list (state T)) (sfk : state T -> option nat)
    (lookf : position T -> res (bset T)) : Prop := {
  m_grammar : t_grammar t' = g;
  m_states : t_states t' = sts;
  m_lr0 : lr0 g start eof p0 sts sfk lookf (t_actions t');
  m_lr1c : k <> LALR \/ carries t' -> term rules eof -> lr1c g start eof p0 sts sfk lookf;
  m_lr1s : k = CLR -> lr1s g start eof p0 sts sfk lookf
}.

Lemma makes_made k t' p0 : makes k dbg g t' -> g_basis g = mkPos start p0 0 [eof] -> exists sfk lookf, made k t' p0 (t_states t') sfk lookf.
Proof.
  intros (t & _ & F & fuel & E)%makes_tabler Hp0. destruct k.
  - exists (sfk_plain (t_kernels t')), (slr_look (t_follow t)). destruct (slr_inv _ _ _ _ _ W Hg _ F _ _ E) as (H1 & _).
    constructor; auto; try discriminate.
    + eapply slr_lr0; eauto.
    + intros _ He. exact (slr_lr1c _ _ _ _ _ W Hg _ F _ _ E _ Hp0 He).
  - exists (sfk_plain (t_kernels t')), clr_look. destruct (clr_inv _ _ _ _ _ W Hg _ F _ _ E) as (H1 & _).
    constructor; auto.
    + eapply clr_lr0; eauto.
    + intros _ _. eapply clr_lr1c; eauto.
    + intros _. eapply clr_lr1s; eauto.
  - destruct E as (p & E). exists (sfk_lalr p), clr_look. destruct (lalr_inv _ _ _ _ _ W Hg _ F _ _ _ E) as (H1 & _ & _ & H2 & _).
    constructor; auto; try discriminate; try congruence.
    + rewrite H2. eapply lalr_lr0; eauto.
    + intros [[]|Hc] He; auto. rewrite H2. eapply lalr_lr1c; eauto. pose proof (lalr_lr0 _ _ _ _ _ W Hg _ F _ _ _ E _ Hp0) as L.
      intros q X n A pr i x Ht Hh Hn. pose proof Ht as Ht'. destruct Ht' as (row & pos0 & Hr & Hi0 & Hd0 & Hk).
      apply lalr_hasl in Hh as (row1 & l & Hr1 & Hi & Hx). rewrite Hr in Hr1. injection Hr1 as <-.
      destruct (row_spec _ _ _ _ _ _ _ _ L _ _ Hr) as (m & Em & Hok).
      pose proof (l_len _ _ _ _ _ _ _ _ L _ _ _ Ht) as Hlen. apply nth_error_Some in Hlen.
      destruct (nth_error (l_states p) n) as [row'|] eqn:En; [|congruence].
      assert (moves t' q X n) as Hmv.
      { assert (exists b, dec g clr_look (sfk_lalr p) start row pos0 X b /\ (b = Shift n \/ b = Goto n)) as (b & Hb & Eb).
        { destruct (is_terminal g X) eqn:Ei.
          - exists (Shift n). split; auto. constructor; auto. now apply is_terminal_term.
          - exists (Goto n). split; auto. constructor; auto. now apply is_terminal_nonterm. }
        destruct (proj2 (proj1 (proj2 Hok) X b)) as (a & Ha & Hla); [eauto|]. exists m, a. split; auto. split; auto.
        assert (inside b a) as Hin by now apply inside_leaves. destruct Eb as [->| ->]; auto. }
      rewrite <- H2 in Hr, En. destruct (Hc q X n row row' (mkPos A pr i l) Hmv Hr En Hi Hn) as ([A1 pr1 i1 l1] & Hi1 & E1 & E2 & E3 & Hinc).
      cbn [p_rule p_seq p_point p_look] in *. subst A1 pr1 i1. apply lalr_hasl. exists row', l1. rewrite <- H2. auto.
Qed.

Lemma tr_moves p0 sfk lookf t q X n : lr0 g start eof p0 (t_states t) sfk lookf (t_actions t) -> tr (t_states t) sfk q X n -> moves t q X n.
Proof.
  intros L (row & pos0 & Hr & Hi0 & Hd0 & Hk). destruct (row_spec _ _ _ _ _ _ _ _ L _ _ Hr) as (m & Em & Hok).
  assert (exists b, dec g lookf sfk start row pos0 X b /\ (b = Shift n \/ b = Goto n)) as (b & Hb & Eb).
  { destruct (is_terminal g X) eqn:Ei.
    - exists (Shift n). split; auto. constructor; auto. now apply is_terminal_term.
    - exists (Goto n). split; auto. constructor; auto. now apply is_terminal_nonterm. }
  destruct (proj2 (proj1 (proj2 Hok) X b)) as (a & Ha & Hla); [eauto|]. exists m, a. split; auto. split; auto.
  assert (inside b a) as Hin by now apply inside_leaves. destruct Eb as [->| ->]; auto.
Qed.

Lemma path_moves p0 sfk lookf t qs Xs : lr0 g start eof p0 (t_states t) sfk lookf (t_actions t) -> path (t_states t) sfk qs Xs -> stack_path t qs Xs.
Proof. intros L. induction 1; constructor; auto. eapply tr_moves; eauto. Qed.

Section Run.
Context {M : Type}.
Variable maps : reductmap T M.
Variable k : method.
Variable t' : tabler T.
Hypothesis Hm : makes k dbg g t'.

Lemma makes_grammar : t_grammar t' = g.
Proof. destruct Wp0 as (p0 & Hp0 & _). destruct (makes_made _ _ _ Hm Hp0) as (sfk & lookf & X). apply X. Qed.

Lemma makes_dfa input : parser_dfa t' input maps = Val (dfa_new input (t_actions t') maps eof).
Proof.
  unfold parser_dfa. rewrite makes_grammar. destruct Wp0 as (p0 & -> & _). reflexivity.
Qed.

Lemma parses_runs input r : parses t' input maps r <-> exists d' o, runs (dfa_new input (t_actions t') maps eof) (d', o) /\
  r = match o with Err e => PErr e | Ok => match d_items d' with [] => PErr MissingPreviousState | it :: _ => POk (tk_item it) end end.
Proof.
  unfold parses, parser_parse. rewrite makes_dfa. cbn [bind]. split.
  - intros (fuel & E). apply bind_val in E as ([d' o] & E1 & E2). exists d', o. split; [now exists fuel|].
    destruct o; [destruct (d_items d')|]; congruence.
  - intros (d' & o & (fuel & E) & ->). exists fuel. rewrite E. cbn [bind]. destruct o; [destruct (d_items d')|]; reflexivity.
Qed.

Lemma fails_runs input rest e : fails t' input maps rest e <->
  exists d', runs (dfa_new input (t_actions t') maps eof) (d', Err e) /\ d_buffer d' = rest.
Proof.
  unfold fails. split.
  - intros (d & d' & fuel & E1 & E2 & E3). rewrite makes_dfa in E1. injection E1 as <-. exists d'. split; auto. now exists fuel.
  - intros (d' & (fuel & E) & H). exists (dfa_new input (t_actions t') maps eof), d', fuel. rewrite makes_dfa. auto.
Qed.

Lemma reaches_steps input d : reaches t' input maps d -> steps (dfa_new input (t_actions t') maps eof) d.
Proof.
  induction 1 as [d E|d d' H IH [E1 E2]].
  - rewrite makes_dfa in E. injection E as <-. constructor.
  - eapply steps_trans; eauto. apply steps_one; auto.
Qed.

Lemma steps_reaches input d d' : steps d d' -> reaches t' input maps d -> reaches t' input maps d'.
Proof. induction 1; auto. intros Hr. apply IHsteps. eapply reaches_round; [exact Hr|]. split; auto. Qed.

Hypothesis Heof : term rules eof.
Hypothesis Hcov : covers rules maps.

Let Heof' : term (g_rules g) eof.
Proof. rewrite Wr. exact Heof. Qed.
Let Hcov' : covers (g_rules g) maps.
Proof. rewrite Wr. exact Hcov. Qed.

(** the stack: a path of the table from state 0 whose items evaluate the consumed tokens *)
Lemma reaches_stack input d : reaches t' input maps d -> Forall (term rules) (map tk_ty input) ->
  stack_path t' (d_states d) (map tk_ty (d_items d)) /\ hd_error (d_states d) = Some (d_top d) /\
  exists used, input = used ++ d_buffer d /\ evals_seq rules maps (rev (map tk_ty (d_items d))) used (rev (d_items d)).
Proof.
  clear Hcov Hcov'. intros R%reaches_steps Ht. destruct Wp0 as (p0 & Hp0 & Hp & _). destruct (makes_made _ _ _ Hm Hp0) as (sfk & lookf & X).
  pose proof (m_lr0 _ _ _ _ _ _ X) as L. pose proof Wr as Erl.
  destruct (steps_vinv _ _ _ _ _ _ _ _ L Heof' maps _ _ R) as (Hs & _ & Hv); [now rewrite Erl|].
  unfold vinv in Hv. rewrite Erl in Hv. split; [|split; auto].
  - eapply path_moves; eauto. apply Hs.
  - apply Hs.
Qed.

(** C10-C12, C16 *)
Lemma parses_evals input m : start_fresh rules start -> parses t' input maps (POk m) ->
  exists rhs its it, prod_at rules start 0 rhs /\ evals_seq rules maps rhs input (its ++ [it]) /\ m = tk_item it.
Proof.
  intros Hf (d' & o & R & Er)%parses_runs. destruct o; [|discriminate].
  destruct Wp0 as (p0 & Hp0 & Hp & _). destruct (makes_made _ _ _ Hm Hp0) as (sfk & lookf & X).
  pose proof (m_lr0 _ _ _ _ _ _ X) as L. pose proof Wr as Erl.
  destruct (run_ok _ _ _ _ _ _ _ _ L maps) with (input := input) (d' := d') as (its & He & Hi); try (rewrite Erl; auto); auto.
  rewrite Erl in He. rewrite Hi in Er. exists (fst p0). destruct (rev its) as [|it its'] eqn:E; [discriminate|]. injection Er as ->.
  exists (rev its'), it. split; auto. split; auto. replace (rev its' ++ [it]) with its; auto. rewrite <- (rev_involutive its), E. reflexivity.
Qed.

(** without assuming that the start symbol occurs in no right-hand side *)
Lemma parses_folds input m : parses t' input maps (POk m) ->
  exists u i rhs its it, prod_at rules start i rhs /\ evals_seq rules maps (u ++ rhs) input (its ++ [it]) /\ m = tk_item it.
Proof.
  clear Hcov Hcov'.
  intros (d' & o & R & Er)%parses_runs. destruct o; [|discriminate].
  destruct Wp0 as (p0 & Hp0 & Hp & _). destruct (makes_made _ _ _ Hm Hp0) as (sfk & lookf & X).
  pose proof (m_lr0 _ _ _ _ _ _ X) as L. pose proof Wr as Erl.
  destruct (run_acc _ _ _ _ _ _ _ _ L maps) with (input := input) (d' := d') as (u & pr & its & Hpr & He & Hi); try (rewrite Erl; auto); auto.
  rewrite Erl in He, Hpr. rewrite Hi in Er. exists u, (snd pr), (fst pr). destruct (rev its) as [|it its'] eqn:E; [discriminate|]. injection Er as ->.
  exists (rev its'), it. split; auto. split; auto. replace (rev its' ++ [it]) with its; auto. rewrite <- (rev_involutive its), E. reflexivity.
Qed.

Lemma parses_sound input m : start_fresh rules start -> parses t' input maps (POk m) -> sentence rules start (map tk_ty input).
Proof.
  intros Hf (d' & o & R & Er)%parses_runs. destruct o; [|discriminate].
  destruct Wp0 as (p0 & Hp0 & Hp & _). destruct (makes_made _ _ _ Hm Hp0) as (sfk & lookf & X).
  pose proof (m_lr0 _ _ _ _ _ _ X) as L. pose proof Wr as Erl. rewrite <- Erl.
  eapply (run_sound _ _ _ _ _ _ _ _ L maps); try (rewrite Erl; auto); eauto.
Qed.

Lemma one_start (p0 : production T) : prod_at rules start 0 (fst p0) -> single_start rules start ->
  forall i rhs, prod_at rules start i rhs -> i = 0 /\ rhs = fst p0.
Proof.
  intros H0 H1 i rhs H. pose proof (H1 _ _ H) as ->. split; auto.
  destruct H0 as (r & j & E1 & E2), H as (r' & j' & E3 & E4). rewrite E1 in E3. injection E3 as <-. congruence.
Qed.

(** C13, C14 *)
Lemma sentence_parses input : k <> LALR \/ carries t' -> start_fresh rules start -> single_start rules start ->
  sentence rules start (map tk_ty input) ->
  (exists m, parses t' input maps (POk m)) \/ exists a b, parses t' input maps (PErr (ConflictErr a b)).
Proof.
  intros Hk Hf H1 Hs.
  destruct Wp0 as (p0 & Hp0 & Hp & _). destruct (makes_made _ _ _ Hm Hp0) as (sfk & lookf & X).
  pose proof (m_lr0 _ _ _ _ _ _ X) as L. pose proof Wr as Erl.
  pose proof (m_lr1c _ _ _ _ _ _ X Hk Heof) as C.
  destruct (sentence_evals _ _ _ _ _ _ _ _ L) with (maps := maps) (input := input) as (its & He); auto; try (rewrite Erl; auto).
  { intros i rhs Hi. now apply (one_start p0 Hp H1) in Hi. }
  assert (start_fresh (g_rules g) start) as Hf' by (rewrite Erl; auto).
  destruct (run_complete _ _ _ _ _ _ _ _ L C Heof' maps _ _ Hf' He) as [(d' & R & Hi)|(d' & a & b & R)].
  - left. assert (d_items d' <> []) as N.
    { intros E. rewrite Hi in E. rewrite <- Erl in Hp. apply (l_noempty _ _ _ _ _ _ _ _ L) in Hp. destruct its; [|simpl in E; destruct (rev its); discriminate].
      inversion He as [E0|]. congruence. }
    destruct (d_items d') as [|it l] eqn:Ei; [congruence|]. exists (tk_item it). apply parses_runs. exists d', Ok. rewrite Ei. auto.
  - right. exists a, b. apply parses_runs. exists d', (Err (ConflictErr a b)). auto.
Qed.

Lemma clean_no_conflict_run input a b : conflicts (t_actions t') = [] -> Forall (term rules) (map tk_ty input) ->
  ~ parses t' input maps (PErr (ConflictErr a b)).
Proof.
  intros Hc Ht (d' & o & R & E)%parses_runs.
  destruct Wp0 as (p0 & Hp0 & Hp & _). destruct (makes_made _ _ _ Hm Hp0) as (sfk & lookf & X).
  pose proof (m_lr0 _ _ _ _ _ _ X) as L. 
  destruct o as [|e]; [destruct (d_items d'); discriminate|]. injection E as <-.
  eapply (clean_not_stuck _ _ _ _ _ _ _ _ L Heof' maps (dfa_new input (t_actions t') maps eof)); auto.
  - apply dfa_new_sinv.
  - unfold terms. now rewrite Wr.
  - exists d', a, b. auto.
Qed.

(** without a fresh start symbol the driver may also stop early, having accepted a sentence ending in a phrase of the start symbol *)
Lemma sentence_parses_any input : k <> LALR \/ carries t' -> single_start rules start ->
  sentence rules start (map tk_ty input) ->
  (exists m, parses t' input maps (POk m)) \/ (exists a b, parses t' input maps (PErr (ConflictErr a b))) \/ parses t' input maps (PErr IncompleteExec).
Proof.
  intros Hk H1 Hs.
  destruct Wp0 as (p0 & Hp0 & Hp & _). destruct (makes_made _ _ _ Hm Hp0) as (sfk & lookf & X).
  pose proof (m_lr0 _ _ _ _ _ _ X) as L. pose proof Wr as Erl.
  pose proof (m_lr1c _ _ _ _ _ _ X Hk Heof) as C.
  destruct (sentence_evals _ _ _ _ _ _ _ _ L) with (maps := maps) (input := input) as (its & He); auto; try (rewrite Erl; auto).
  { intros i rhs Hi. now apply (one_start p0 Hp H1) in Hi. }
  assert (forall d', runs (dfa_new input (t_actions t') maps eof) (d', Ok) -> exists m, parses t' input maps (POk m)) as K.
  { intros d' R. clear Hcov Hcov'. destruct (run_acc _ _ _ _ _ _ _ _ L maps) with (input := input) (d' := d') as (u & pr & its' & Hpr & He' & Hi); try (rewrite Erl; auto); auto.
    assert (its' <> []) as N. { intros ->. inversion He' as [E|]. apply (l_noempty _ _ _ _ _ _ _ _ L) in Hpr. destruct u; simpl in E; congruence. }
    destruct (d_items d') as [|it l] eqn:Ei.
    - exfalso. apply N. rewrite <- (rev_involutive its'), <- Hi. reflexivity.
    - exists (tk_item it). apply parses_runs. exists d', Ok. rewrite Ei. auto. }
  destruct (run_complete' _ _ _ _ _ _ _ _ L C Heof' maps _ _ He) as [(d' & R & Hi)|[(d' & a & b & R)|[_ (d' & [R|R])]]]; eauto.
  - right. left. exists a, b. apply parses_runs. exists d', (Err (ConflictErr a b)). auto.
  - right. right. apply parses_runs. exists d', (Err IncompleteExec). auto.
Qed.

Lemma clean_parses input : k <> LALR \/ carries t' -> start_fresh rules start -> single_start rules start -> conflicts (t_actions t') = [] ->
  sentence rules start (map tk_ty input) -> exists m, parses t' input maps (POk m).
Proof.
  intros Hk Hf H1 Hc Hs. destruct (sentence_parses input Hk Hf H1 Hs) as [H|(a & b & H)]; auto.
  exfalso. eapply clean_no_conflict_run; eauto. apply Hs.
Qed.

(** C19 *)
Lemma halts_parses input : (exists r, runs (dfa_new input (t_actions t') maps eof) r) -> exists r, parses t' input maps r.
Proof. intros ([d' o] & R). eexists. apply parses_runs. exists d', o. eauto. Qed.

Lemma clr_returns input : k = CLR -> Forall (term rules) (map tk_ty input) -> exists r, parses t' input maps r.
Proof.
  intros Hk Ht. apply halts_parses. pose proof Wr as Erl.
  destruct Wp0 as (p0 & Hp0 & Hp & _). destruct (makes_made _ _ _ Hm Hp0) as (sfk & lookf & X).
  pose proof (m_lr0 _ _ _ _ _ _ X) as L.
  eapply (canonical_halts _ _ _ _ _ _ _ _ L Heof' maps Hcov' (m_lr1c _ _ _ _ _ _ X ltac:(left; congruence) Heof) (m_lr1s _ _ _ _ _ _ X Hk)) with (n := length input); auto.
  - apply dfa_new_sinv.
  - unfold terms. now rewrite Wr.
Qed.

Lemma unit_chain_trans A B : clos_trans _ (fun A B => exists i, prod_at rules A i [B] /\ nonterm rules B) A B -> unit_chain rules A B.
Proof.
  intros H. apply clos_trans_t1n in H. induction H as [A B (i & H1 & H2)|A B C (i & H1 & H2) H IH]; [eapply uc_one|eapply uc_more]; eauto.
Qed.

Lemma acyclic_returns input : no_unit_cycle rules -> Forall (term rules) (map tk_ty input) -> exists r, parses t' input maps r.
Proof.
  intros Hc Ht. apply halts_parses. pose proof Wr as Erl.
  destruct Wp0 as (p0 & Hp0 & Hp & _). destruct (makes_made _ _ _ Hm Hp0) as (sfk & lookf & X).
  pose proof (m_lr0 _ _ _ _ _ _ X) as L.
  eapply (acyclic_halts _ _ _ _ _ _ _ _ L Heof' maps Hcov') with (n := length input); auto.
  - intros A H. rewrite Erl in H. apply unit_chain_trans in H. exact (Hc A H).
  - apply dfa_new_sinv.
  - unfold terms. now rewrite Erl.
Qed.

Lemma entry_conflicts (acts : acttable T) q x a b : entry acts q x = Some (Conflict a b) -> In (Conflict a b) (conflicts acts).
Proof.
  intros H. unfold entry in H. destruct (nth_error acts q) as [m|] eqn:Em; [|discriminate].
  apply in_conflicts. split; auto. exists q, m, x. split; auto. now apply bm_get_in.
Qed.

(** C21 *)
Lemma never_panics fuel input p : Forall (term rules) (map tk_ty input) -> parser_parse fuel t' input maps <> Panic p.
Proof.
  intros Ht. unfold parser_parse. rewrite makes_dfa. cbn [bind]. pose proof Wr as Erl.
  destruct Wp0 as (p0 & Hp0 & Hp & _). destruct (makes_made _ _ _ Hm Hp0) as (sfk & lookf & X).
  pose proof (m_lr0 _ _ _ _ _ _ X) as L. rewrite <- Erl in Ht.
  pose proof (run_no_panic _ _ _ _ _ _ _ _ L maps Hcov' Heof' fuel (dfa_new input (t_actions t') maps eof) p (dfa_new_sinv _ _ _ _ _ _) Ht) as NP.
  destruct (dfa_start fuel (dfa_new input (t_actions t') maps eof)) as [[d' [|e]]| |] eqn:E; cbn [bind]; try congruence.
  destruct (d_items d'); discriminate.
Qed.

Lemma benign_run input rest e : Forall (term rules) (map tk_ty input) -> fails t' input maps rest e ->
  match e with
  | MissingPreviousState | StateNotSpecified => False
  | UnexpectedEof => rest = [] /\ exists A i rhs, prod_at rules A i rhs /\ In eof rhs
  | UnexpectedToken t es => (t = match rest with [] => eof | tok :: _ => tk_ty tok end) /\ ~ In t es /\ sorted es
  | IncompleteExec => rest <> []
  | ConflictErr a b => In (Conflict a b) (conflicts (t_actions t'))
  end.
Proof.
  intros Ht (d' & R & Hb)%fails_runs. pose proof Wr as Erl.
  destruct Wp0 as (p0 & Hp0 & Hp & _). destruct (makes_made _ _ _ Hm Hp0) as (sfk & lookf & X).
  pose proof (m_lr0 _ _ _ _ _ _ X) as L. rewrite <- Erl in Ht.
  pose proof (run_benign _ _ _ _ _ _ _ _ L maps Heof' _ _ R (dfa_new_sinv _ _ _ _ _ _) Ht) as B. cbn [fst snd] in B.
  assert (d_eof d' = eof) as Ee.
  { clear - L R Heof' Ht. destruct (runs_steps _ _ R) as (d1 & S1 & _ & [[_ [=]]|(d2 & e2 & Ef & S2 & [= <- <-])]).
    destruct (steps_inv _ _ _ _ _ _ _ _ L maps Heof' _ _ S1 (dfa_new_sinv _ _ _ _ _ _) Ht) as [I1 I2].
    destruct S2 as (fuel & S2). pose proof (si_eof _ _ _ _ _ _ I1) as Ee. rewrite <- Ee. clear - S2.
    revert S2. generalize (lookahead d1). revert d1. induction fuel as [|n IH]; simpl; [discriminate|]. intros d1 s.
    destruct (nth_error (d_table d1) (d_top d1)) as [row|]; [|congruence].
    destruct (bm_get s row) as [[to|to|A pr| |a b]|]; unfold dfa_shift, dfa_goto, dfa_accept.
    - destruct (d_buffer d1); congruence.
    - congruence.
    - intros E. apply bind_val in E as (d3 & E1 & E2). apply IH in E2. rewrite E2. unfold dfa_pop in E1.
      destruct (length (d_items d1) <? length (fst pr)); [discriminate|]. apply bind_val in E1 as (fs & _ & E1). apply bind_val in E1 as (f & _ & E1).
      apply bind_val in E1 as (q & _ & [= <-]). reflexivity.
    - destruct (d_buffer d1); intros [= <- <-]; reflexivity.
    - congruence.
    - congruence. }
  destruct e; simpl in B; auto; try contradiction.
  - destruct B as (-> & m & Em & -> & N). split; [unfold lookahead; now rewrite Hb, Ee|]. split; auto.
    apply (row_spec' _ _ _ _ _ _ _ _ L) in Em as (row & _ & Hs & _). exact Hs.
  - destruct B as [B1 B2]. rewrite <- Hb, <- Erl. auto.
  - clear B. destruct (runs_steps _ _ R) as (d1 & S1 & _ & [[_ [=]]|(d2 & e2 & Ef & S2 & [= <- <-])]).
    destruct (steps_inv _ _ _ _ _ _ _ _ L maps Heof' _ _ S1 (dfa_new_sinv _ _ _ _ _ _) Ht) as [I1 I2].
    destruct (step_inv' _ _ _ _ _ _ _ _ L maps Heof' _ _ _ I1 I2 S2) as [SR _].
    inversion SR; subst; eapply entry_conflicts; eauto.
  - destruct B as (tok & r & B & _). intros E. congruence.
Qed.

(** C22 *)
Lemma unexpected_right input rest used t es : k <> LALR \/ carries t' -> single_start rules start ->
  Forall (term rules) (map tk_ty input) ->
  fails t' input maps rest (UnexpectedToken t es) -> input = used ++ rest ->
  (rest = [] -> t = eof /\ ~ sentence rules start (map tk_ty used)) /\
  (forall tok rest', rest = tok :: rest' -> t = tk_ty tok /\ ~ exists v, sentence rules start (map tk_ty used ++ t :: v)).
Proof.
  intros Hk H1 Ht Hfail Ei. pose proof (benign_run _ _ _ Ht Hfail) as [B _]. apply fails_runs in Hfail as (d' & R & Hb).
  destruct Wp0 as (p0 & Hp0 & Hp & _). destruct (makes_made _ _ _ Hm Hp0) as (sfk & lookf & X).
  pose proof (m_lr0 _ _ _ _ _ _ X) as L. pose proof (m_lr1c _ _ _ _ _ _ X Hk Heof) as C.
  assert (forall i rhs, prod_at (g_rules g) start i rhs -> rhs = fst p0) as H1'.
  { intros i rhs Hi. rewrite Wr in Hi. now apply (one_start p0 Hp H1) in Hi. }
  rewrite <- Hb in Ei. pose proof (no_false_alarm _ _ _ _ _ _ _ _ L Heof' H1' maps Hcov' C _ _ _ _ _ R Ei) as N. rewrite Wr, Hb in N.
  subst rest. split.
  - intros E. rewrite E in *. auto.
  - intros tok rest' E. rewrite E in *. split; auto. intros (v & Hv). rewrite B in Hv. exact (N v Hv).
Qed.

(** C23 *)
Lemma reaches_viable input d used : productive rules ->
  reaches t' input maps d -> input = used ++ d_buffer d -> viable rules start (map tk_ty used).
Proof.
  clear Hcov Hcov'.
  intros Hpr H Ei. apply reaches_steps in H. destruct Wp0 as (p0 & Hp0 & Hp & _). destruct (makes_made _ _ _ Hm Hp0) as (sfk & lookf & X).
  pose proof (m_lr0 _ _ _ _ _ _ X) as L. rewrite <- Wr in *. eapply (steps_viable _ _ _ _ _ _ _ _ L Heof' maps); eauto.
Qed.

Lemma reaches_used_term input d used : reaches t' input maps d -> input = used ++ d_buffer d -> Forall (term rules) (map tk_ty used).
Proof.
  clear Hcov Hcov'.
  intros H Ei. apply reaches_steps in H. destruct Wp0 as (p0 & Hp0 & Hp & _). destruct (makes_made _ _ _ Hm Hp0) as (sfk & lookf & X).
  pose proof (m_lr0 _ _ _ _ _ _ X) as L. rewrite <- Wr in *. eapply (steps_used_term _ _ _ _ _ _ _ _ L Heof' maps); eauto.
Qed.

Lemma fails_reaches input rest e : fails t' input maps rest e -> exists d, reaches t' input maps d /\ d_buffer d = rest.
Proof.
  intros (d' & R & Hb)%fails_runs. destruct (runs_steps _ _ R) as (d1 & S1 & _ & [[_ [=]]|(d2 & e2 & Ef & S2 & [= <- <-])]).
  exists d1. split.
  - eapply steps_reaches; eauto. constructor. apply makes_dfa.
  - apply stepsto_local in S2 as [([=] & _)|[E _]]. congruence.
Qed.

Lemma reaches_suffix input d : reaches t' input maps d -> exists used, input = used ++ d_buffer d.
Proof. intros H. apply reaches_steps, steps_suffix in H. exact H. Qed.

Lemma fails_viable input rest used e : productive rules ->
  fails t' input maps rest e -> input = used ++ rest -> viable rules start (map tk_ty used).
Proof. intros Hp (d & H & <-)%fails_reaches. now apply reaches_viable. Qed.

(** C37 *)
Lemma clr_reduces_legally input d used A pr row : k = CLR -> productive rules -> Forall (term rules) (map tk_ty input) ->
  reaches t' input maps d -> input = used ++ d_buffer d ->
  nth_error (t_actions t') (d_top d) = Some row -> bm_get (lookahead d) row = Some (Reduce A pr) ->
  (lookahead d = eof /\ sentence rules start (map tk_ty used)) \/ viable rules start (map tk_ty used ++ [lookahead d]).
Proof.
  clear Hcov Hcov'.
  intros Hk Hpr Ht H Ei E1 E2. apply reaches_steps in H. destruct Wp0 as (p0 & Hp0 & Hp & _). destruct (makes_made _ _ _ Hm Hp0) as (sfk & lookf & X).
  pose proof (m_lr0 _ _ _ _ _ _ X) as L. pose proof (m_lr1s _ _ _ _ _ _ X Hk) as S1. rewrite <- Wr in *.
  eapply (reduce_viable _ _ _ _ _ _ _ _ L Heof' maps S1); eauto.
Qed.

(** C24 *)
Lemma clr_expected input rest used t es (m0 : M) : k = CLR -> single_start rules start ->
  Forall (term rules) (map tk_ty input) -> fails t' input maps rest (UnexpectedToken t es) -> input = used ++ rest ->
  (forall a v, sentence rules start (map tk_ty used ++ a :: v) -> In a es) /\
  (sentence rules start (map tk_ty used) -> In eof es).
Proof.
  intros Hk H1 Ht (d' & R & Hb)%fails_runs Ei.
  destruct Wp0 as (p0 & Hp0 & Hp & _). destruct (makes_made _ _ _ Hm Hp0) as (sfk & lookf & X).
  pose proof (m_lr0 _ _ _ _ _ _ X) as L. pose proof (m_lr1c _ _ _ _ _ _ X ltac:(left; congruence) Heof) as C.
  pose proof (m_lr1s _ _ _ _ _ _ X Hk) as S1.
  assert (forall i rhs, prod_at (g_rules g) start i rhs -> rhs = fst p0) as H1'.
  { intros i rhs Hi. rewrite Wr in Hi. now apply (one_start p0 Hp H1) in Hi. }
  rewrite <- Hb in Ei. assert (Forall (term (g_rules g)) (map tk_ty input)) as Ht' by (rewrite Wr; auto).
  destruct (expected_complete _ _ _ _ _ _ _ _ L Heof' H1' maps Hcov' C S1 _ _ _ _ _ Ht' R Ei) as [A1 A2]. rewrite Wr in A1, A2.
  split; eauto.
Qed.

(** C39 *)
Lemma fails_local input input' x y y' e : input = x ++ y -> input' = x ++ y' ->
  hd_error (map tk_ty y') = hd_error (map tk_ty y) -> fails t' input maps y e -> fails t' input' maps y' e.
Proof.
  intros -> -> Hh (d' & R & Hb)%fails_runs. apply fails_runs. exists (setb d' y'). split; auto.
  change (dfa_new (x ++ y') (t_actions t') maps eof) with (setb (dfa_new (x ++ y) (t_actions t') maps eof) (x ++ y')).
  apply runs_local; auto; cbn [dfa_new d_buffer]; congruence.
Qed.

(** same configuration up to the unread input *)
Definition with_rest (d : dfa T M) (y : list (token T M)) : dfa T M :=
  mkDfa y (d_states d) (d_items d) (d_table d) (d_top d) (d_finished d) (d_reductors d) (d_eof d).

Lemma reaches_local x y y' d : reaches t' (x ++ y) maps d -> d_buffer d = y ->
  hd_error (map tk_ty y') = hd_error (map tk_ty y) -> reaches t' (x ++ y') maps (with_rest d y').
Proof.
  intros H Hb Hh. apply reaches_steps in H.
  apply steps_local with (x := x) (y := y) (y' := y') in H; auto; [|cbn [dfa_new d_buffer]; congruence].
  eapply steps_reaches; [exact H|]. constructor. rewrite makes_dfa. reflexivity.
Qed.
End Run.

(** [validate] *)
Lemma validates_parses k t' input b : makes k dbg g t' ->
  (validates t' input b <-> exists r, parses t' input (empty_map g) r /\ b = match r with POk _ => true | PErr _ => false end).
Proof.
  intros Hm. unfold validates, validate, parses. rewrite (makes_grammar k t' Hm). split.
  - intros (fuel & E). apply bind_val in E as (r & E1 & [= <-]). eauto.
  - intros (r & (fuel & E) & ->). exists fuel. rewrite E. reflexivity.
Qed.

Lemma empty_covers : covers rules (empty_map g).
Proof. apply transparent_covers; auto. apply Wr. Qed.

(** C18 *)
Lemma clean_unamb k t' w t1 t2 : k <> LALR \/ carries t' -> makes k dbg g t' -> term rules eof -> start_fresh rules start -> single_start rules start ->
  conflicts (t_actions t') = [] -> tree_of rules start w t1 -> tree_of rules start w t2 -> t1 = t2.
Proof.
  intros Hk Hm Heof Hf H1 Hc. destruct Wp0 as (p0 & Hp0 & Hp & Hz). destruct (makes_made _ _ _ Hm Hp0) as (sfk & lookf & X).
  pose proof (m_lr0 _ _ _ _ _ _ X) as L. pose proof (m_lr1c _ _ _ _ _ _ X Hk Heof) as C.
  rewrite <- Wr in *. eapply (clean_unambiguous _ _ _ _ _ _ _ _ L); eauto.
  intros i rhs Hi. rewrite Wr in *. rewrite Hz. now apply (one_start p0 Hp H1).
Qed.

(** a debug build admits only one start production *)
Lemma debug_single : dbg = true -> single_start rules start.
Proof.
  intros Hd i rhs (r & j & E1 & E2). destruct (grammar_new_inv _ _ _ _ _ Hg) as (_ & r' & p0 & ps & Hr & Hp & _ & Hs).
  rewrite E1 in Hr. injection Hr as <-. rewrite Hp, (Hs Hd) in E2. destruct i as [|[|i]]; auto; discriminate.
Qed.
End Wrap.
