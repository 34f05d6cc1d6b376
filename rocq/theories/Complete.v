(** Completeness: the driver follows every parse tree, unless it meets a conflict
    (C13, C14, C18, C22). *)
From Coq Require Import List Bool Arith Lia.
From Verif Require Import BTree Model Base Spec SpecP GrammarP FirstFollow Closure ActTab LR Sound CanonLR.
Import ListNotations.

Section Complete.
Context {T : Type} {OT : Ord T}.
Variables (g : grammar T) (start eof : T) (p0 : production T).
Variable sts : list (state T).
Variable sfk : state T -> option nat.
Variable lookf : position T -> res (bset T).
Variable acts : acttable T.
Notation rules := (g_rules g).
Notation lr0 := (lr0 g start eof p0 sts sfk lookf acts).
Notation has := (has sts).
Notation hasl := (hasl sts lookf).
Notation tr := (tr sts sfk).
Notation path := (path sts sfk).
Hypothesis L : lr0.
Hypothesis C : lr1c g start eof p0 sts sfk lookf.
Hypothesis Heof : term rules eof.

Section Run.
Context {M : Type}.
Variable maps : reductmap T M.
Hypothesis Hcov : covers rules maps.
Notation sinv := (sinv eof sts sfk acts maps).
Notation stepR := (stepR eof sts sfk acts maps).

Definition la_of (rest : list (token T M)) : T := match rest with [] => eof | t :: _ => tk_ty t end.

(** the run from [d] ends in a conflict *)
Definition stuck (d : dfa T M) : Prop := exists d' a b, runs d (d', Err (ConflictErr a b)).

(** the run from [d] ends with the action [Acc] *)
Definition early (d : dfa T M) : Prop := exists d', runs d (d', Ok) \/ runs d (d', Err IncompleteExec).

(** the reasons for which the run from [d] may leave a parse tree *)
Definition halted (d : dfa T M) : Prop := stuck d \/ (~ start_fresh rules start /\ early d).

Lemma steps_halted d d' : steps d d' -> halted d' -> halted d.
Proof.
  intros H [(d1 & a & b & R)|[N (d1 & [R|R])]]; [left; exists d1, a, b|right; split; auto; exists d1; left|right; split; auto; exists d1; right]; eapply steps_runs; eauto.
Qed.

Lemma fresh_halted d : start_fresh rules start -> halted d -> stuck d.
Proof. intros Hf [H|[N _]]; auto. contradiction. Qed.

Lemma look_of d rest : sinv d -> d_buffer d = rest -> lookahead d = la_of rest.
Proof. intros S <-. unfold lookahead, la_of. destruct (d_buffer d); auto. apply (si_eof _ _ _ _ _ _ S). Qed.

Lemma pushed_sinv d n it rest : sinv d -> tr (d_top d) (tk_ty it) n -> sinv (pushed d n it rest 0).
Proof.
  intros [St Sp Stop Sm Se] Ht. constructor; simpl; auto.
  destruct (d_states d) as [|q qs]; [discriminate|]. simpl in Stop. injection Stop as ->. econstructor; eauto.
Qed.

Definition ctx (q : nat) (A : T) (pr : production T) (p : nat) (t : T) : Prop :=
  match nth_error (fst pr) (S p) with Some Y => first_spec rules Y t | None => hasl q A pr p t end.

Lemma follow_tree :
  (forall X w it, evals rules maps X w it -> forall d rest A pr p,
     sinv d -> d_finished d = false -> d_buffer d = w ++ rest -> has (d_top d) A pr p -> nth_error (fst pr) p = Some X ->
     term rules (la_of rest) -> ctx (d_top d) A pr p (la_of rest) ->
     (exists n, tr (d_top d) X n /\ steps d (pushed d n it rest 0)) \/ halted d) /\
  (forall Xs w its, evals_seq rules maps Xs w its -> forall d rest A pr p,
     sinv d -> d_finished d = false -> d_buffer d = w ++ rest -> skipn p (fst pr) = Xs -> p <= length (fst pr) ->
     term rules (la_of rest) -> hasl (d_top d) A pr p (la_of rest) ->
     (exists d' qs, steps d d' /\ sinv d' /\ d_finished d' = false /\ d_buffer d' = rest /\ d_items d' = rev its ++ d_items d /\
        d_states d' = qs ++ d_states d /\ length qs = length its /\
        hasl (d_top d') A pr (length (fst pr)) (la_of rest)) \/ halted d).
Proof.
  apply evals_mut.
  - (* token *)
    intros tok Ht d rest A pr p S Ef Eb Hh Hn _ _. simpl in Eb.
    destruct (l_tr _ _ _ _ _ _ _ _ L _ _ _ _ _ Hh Hn) as (n & Htr).
    assert (lookahead d = tk_ty tok) as El by (unfold lookahead; now rewrite Eb).
    destruct (has_entry _ _ _ _ _ _ _ _ L _ _ _ _ _ _ Hh Hn Htr) as [E|(a & b & E)].
    + left. exists n. split; auto. apply steps_one; auto. eapply step_of; eauto. eapply sr_shift; eauto.
      rewrite E. replace (is_terminal g (tk_ty tok)) with true; auto. symmetry. now apply is_terminal_term.
    + right. left. exists d, a, b. apply runs_err; auto. eapply step_of; eauto. apply sr_conflict. now rewrite El.
  - (* rule *)
    intros B i rhs w its fs f Hpr Hev IH Efs Ef0 d rest A pr p S Ef Eb Hh Hn Hter Hc.
    assert (hasl (d_top d) B (rhs, i) 0 (la_of rest)) as Hl.
    { unfold ctx in Hc. destruct (nth_error (fst pr) (Datatypes.S p)) as [Y|] eqn:Ey.
      - eapply (c_first _ _ _ _ _ _ _ C); eauto.
      - eapply (c_last _ _ _ _ _ _ _ C); eauto. }
    destruct (IH d rest B (rhs, i) 0 S Ef Eb eq_refl (Nat.le_0_l _) Hter Hl)
      as [(d' & qs & H1 & H2 & H3 & H4 & H5 & H6 & H7 & H8)|Hst]; [|now right].
    pose proof (look_of d' rest H2 H4) as El.
    destruct (l_tr _ _ _ _ _ _ _ _ L _ _ _ _ _ Hh Hn) as (n & Htr).
    assert (length its = length rhs) as Hlen.
    { pose proof (proj2 (evals_ty rules maps) _ _ _ Hev) as E. rewrite <- E. now rewrite map_length. }
    assert (nth_error (d_states d') (length rhs) = Some (d_top d)) as Hnq.
    { rewrite H6, nth_error_app2 by lia. rewrite H7, Hlen, Nat.sub_diag.
      pose proof (si_top _ _ _ _ _ _ S) as Stop. destruct (d_states d); simpl in *; congruence. }
    assert (Enc : nonterm rules B) by (eapply prod_nonterm; eauto).
    simpl in H8.
    destruct (hasl_entry _ _ _ _ _ _ _ _ L _ _ _ _ H8) as [E|(a & b & E)].
    + destruct (eqb_spec B start) as [->|_].
      { right. eapply steps_halted; [exact H1|]. right. split.
        - intros Hfresh. apply (l_valid _ _ _ _ _ _ _ _ L) in Hh as [Hh _]. apply (Hfresh _ _ _ Hh). eapply nth_error_In; eauto.
        - exists (accepted d'). assert (rest = [] \/ rest <> []) as [Er|Er] by (destruct rest; auto; right; discriminate).
          + left. eapply runs_step; [exact H3| |apply runs_fin; reflexivity]. eapply step_of; eauto. apply sr_acc; [now rewrite El|congruence].
          + right. apply runs_err; auto. eapply step_of; eauto. apply sr_acc_early; [now rewrite El|congruence]. }
      destruct (has_entry _ _ _ _ _ _ _ _ L _ _ _ _ _ _ Hh Hn Htr) as [E'|(a & b & E')].
      * replace (is_terminal g B) with false in E' by (symmetry; now apply is_terminal_nonterm).
        left. exists n. split; auto. eapply steps_trans; [exact H1|]. apply steps_one; auto.
        eapply step_of; eauto.
        assert (pushed d n (mkTok (f its) B) rest 0 =
          pushed d' n (mkTok (f (rev (firstn (length (fst (rhs, i))) (d_items d')))) B) (d_buffer d') (length (fst (rhs, i)))) as ->.
        { unfold pushed. simpl. rewrite H4, H5, H6, H3, Ef.
          rewrite (si_table _ _ _ _ _ _ S), (si_table _ _ _ _ _ _ H2), (si_maps _ _ _ _ _ _ S), (si_maps _ _ _ _ _ _ H2),
            (si_eof _ _ _ _ _ _ S), (si_eof _ _ _ _ _ _ H2).
          rewrite skipn_app, firstn_app. replace (length rhs - length qs) with 0 by lia.
          replace (length rhs - length (rev its)) with 0 by (rewrite rev_length; lia).
          rewrite (skipn_all2 qs) by lia. rewrite (firstn_all2 (rev its)) by (rewrite rev_length; lia).
          rewrite skipn_app, (skipn_all2 (rev its)) by (rewrite rev_length; lia).
          replace (length rhs - length (rev its)) with 0 by (rewrite rev_length; lia). simpl.
          now rewrite app_nil_r, rev_involutive. }
        eapply (sr_reduce _ _ _ _ _ _ B (rhs, i) (d_top d) n fs f); eauto. rewrite El. exact E.
      * right. eapply steps_halted; [exact H1|]. left. eexists _, a, b. apply runs_err; auto. eapply step_of; eauto.
        eapply (sr_reduce_conflict _ _ _ _ _ _ B (rhs, i) (d_top d) a b fs f); eauto. rewrite El. exact E.
    + right. eapply steps_halted; [exact H1|]. left. exists d', a, b. apply runs_err; auto. eapply step_of; eauto.
      apply sr_conflict. now rewrite El.
  - (* nil *)
    intros d rest A pr p S Ef Eb Es Hp Hter Hl. left. exists d, [].
    assert (p = length (fst pr)) as ->.
    { destruct (le_lt_dec (length (fst pr)) p); [lia|]. apply (f_equal (@length _)) in Es. rewrite skipn_length in Es. simpl in Es. lia. }
    split; [constructor|]. auto 10.
  - (* cons *)
    intros X Xs w1 w2 it its Hev IH1 Hevs IH2 d rest A pr p S Ef Eb Es Hp Hter Hl.
    assert (nth_error (fst pr) p = Some X) as Hn.
    { rewrite <- (Nat.add_0_r p), <- nth_error_skipn, Es. reflexivity. }
    assert (skipn (Datatypes.S p) (fst pr) = Xs) as Es'.
    { rewrite (skipn_nth_cons _ _ _ Hn) in Es. congruence. }
    assert (Hlt : p < length (fst pr)) by (apply nth_error_Some; congruence).
    assert (Hctx : term rules (la_of (w2 ++ rest)) /\ ctx (d_top d) A pr p (la_of (w2 ++ rest))).
    { unfold ctx. destruct (nth_error (fst pr) (Datatypes.S p)) as [Y|] eqn:Ey.
      - rewrite (skipn_nth_cons _ _ _ Ey) in Es'. destruct Xs as [|Y' Xs']; [discriminate|]. injection Es' as <- Es'.
        inversion Hevs as [|? ? v1 v2 it1 its1 Hv1 Hv2]; subst.
        apply (proj1 (evals_derives rules maps)) in Hv1 as [Hd Hf].
        pose proof (derives_nonempty rules _ _ (l_noempty _ _ _ _ _ _ _ _ L) Hd) as Hne. rewrite map_length in Hne.
        destruct v1 as [|tk v1]; [simpl in Hne; lia|]. simpl. simpl in Hf, Hd. inversion Hf; subst. split; auto. split; eauto.
      - apply nth_error_None in Ey. assert (Xs = []) as -> by (rewrite <- Es'; now apply skipn_all2).
        inversion Hevs; subst. simpl. auto. }
    destruct Hctx as [Hct1 Hct2].
    destruct (IH1 d (w2 ++ rest) A pr p S Ef) as [(n & Htr & H1)|Hst]; auto.
    { now rewrite app_assoc. } { eapply hasl_has; eauto. }
    pose proof (c_fwd _ _ _ _ _ _ _ C _ _ _ _ _ _ _ Htr Hl Hn) as Hl'.
    set (d1 := pushed d n it (w2 ++ rest) 0) in *.
    assert (sinv d1) as S1.
    { apply pushed_sinv; auto. rewrite (proj1 (evals_ty rules maps) _ _ _ Hev). auto. }
    destruct (IH2 d1 rest A pr (Datatypes.S p) S1 Ef eq_refl Es' Hlt Hter Hl')
      as [(d' & qs & H2 & H3 & H4 & H5 & H6 & H7 & H8 & H9)|Hst].
    + left. exists d', (qs ++ [n]). split; [eapply steps_trans; eauto|]. split; auto. split; auto. split; auto.
      split; [rewrite H6; simpl; now rewrite <- app_assoc|].
      split; [rewrite H7; simpl; now rewrite <- app_assoc|]. split; auto. rewrite app_length. simpl. lia.
    + right. eapply steps_halted; eauto.
Qed.

(** every value of the start production is computed, unless a conflict, or a premature acceptance, stops the run *)
Lemma run_complete' input its : evals_seq rules maps (fst p0) input its ->
  (exists d', runs (dfa_new input acts maps eof) (d', Ok) /\ d_items d' = rev its) \/ halted (dfa_new input acts maps eof).
Proof.
  intros Hev. set (d := dfa_new input acts maps eof).
  assert (sinv d) as S by apply dfa_new_sinv.
  destruct (proj2 follow_tree _ _ _ Hev d [] start p0 0 S eq_refl) as [(d' & qs & H1 & H2 & H3 & H4 & H5 & H6 & H7 & H8)|Hst]; auto.
  - simpl. now rewrite app_nil_r.
  - lia.
  - apply (c_start _ _ _ _ _ _ _ C).
  - pose proof (look_of d' [] H2 H4) as El. simpl in El, H8.
    destruct (hasl_entry _ _ _ _ _ _ _ _ L _ _ _ _ H8) as [E|(a & b & E)].
    + rewrite eqb_refl in E. left. exists (accepted d'). split.
      * eapply steps_runs; [exact H1|]. eapply runs_step; [exact H3| |apply runs_fin; reflexivity].
        eapply step_of; eauto. apply sr_acc; auto. now rewrite El.
      * simpl. rewrite H5. now rewrite app_nil_r.
    + right. eapply steps_halted; [exact H1|]. left. exists d', a, b. apply runs_err; auto. eapply step_of; eauto.
      apply sr_conflict. now rewrite El.
Qed.

Lemma run_complete input its : start_fresh rules start -> evals_seq rules maps (fst p0) input its ->
  (exists d', runs (dfa_new input acts maps eof) (d', Ok) /\ d_items d' = rev its) \/ stuck (dfa_new input acts maps eof).
Proof. intros Hf H. apply run_complete' in H as [H|H]; auto. right. now apply fresh_halted. Qed.

(** with a conflict-free table no run is stuck *)
Lemma clean_not_stuck d : conflicts acts = [] -> sinv d -> terms g d -> ~ stuck d.
Proof.
  intros Hc S Ht (d' & a & b & R). revert S Ht. remember (d', Err (ConflictErr a b)) as r eqn:Er. revert Er.
  revert d r R. refine (runs_ind (fun d r => _) _ _ _); [intros d Ef|intros d d1 e Ef St|intros d d1 r Ef St R IH]; intros Er S Ht.
  - discriminate.
  - injection Er as -> ->. destruct (step_inv' _ _ _ _ _ _ _ _ L maps Heof _ _ _ S Ht St) as [SR _].
    inversion SR; subst.
    + eapply (clean_no_conflict acts); eauto. exists a, b. eauto.
    + eapply (clean_no_conflict acts); eauto. exists a, b. eauto.
  - destruct (step_inv' _ _ _ _ _ _ _ _ L maps Heof _ _ _ S Ht St) as [_ H]. destruct (H eq_refl). auto.
Qed.
End Run.
End Complete.
