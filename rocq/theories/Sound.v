(** Soundness of the driver on any table satisfying [lr0] (C10-C12, C16, C21). *)
From Coq Require Import List Bool Arith Lia.
From Verif Require Import BTree Model Base Spec SpecP GrammarP FirstFollow Closure ActTab LR.
Import ListNotations.

Section NoFuel.
Context {T : Type} {OT : Ord T} {M : Type}.

Lemma travel_mono' fuel (d : dfa T M) s : travel fuel d s <> Fuel -> forall fuel', fuel <= fuel' -> travel fuel' d s = travel fuel d s.
Proof.
  revert d s. induction fuel as [|n IH]; intros d s E [|m] L; simpl in *; try congruence; try lia.
  destruct (nth_error (d_table d) (d_top d)) as [st|]; auto.
  destruct (bm_get s st) as [[| |A pr| |]|]; auto.
  destruct (dfa_pop d A pr); simpl in *; auto. apply IH; auto. lia.
Qed.

Lemma dfa_start_mono' fuel (d : dfa T M) : dfa_start fuel d <> Fuel -> forall fuel', fuel <= fuel' -> dfa_start fuel' d = dfa_start fuel d.
Proof.
  revert d. induction fuel as [|n IH]; intros d E [|m] L; simpl in *; try congruence; try lia.
  destruct (d_finished d); auto.
  assert (travel n d (lookahead d) <> Fuel) as N by (intros F; rewrite F in E; simpl in E; congruence).
  rewrite (travel_mono' _ _ _ N m) by lia. destruct (travel n d (lookahead d)) as [[d' [|e]]| |]; simpl in *; auto.
  apply IH; auto. lia.
Qed.
End NoFuel.

Section Sound.
Context {T : Type} {OT : Ord T}.
Variables (g : grammar T) (start eof : T) (p0 : production T).
Variable sts : list (state T).
Variable sfk : state T -> option nat.
Variable lookf : position T -> res (bset T).
Variable acts : acttable T.
Notation rules := (g_rules g).
Notation lr0 := (lr0 g start eof p0 sts sfk lookf acts).
Notation has := (has sts).
Notation hasl := (hasl sts lookf).
Notation tr := (tr sts sfk).
Notation path := (path sts sfk).
Hypothesis L : lr0.

Lemma tr_nonzero q X n : tr q X n -> n <> 0.
Proof.
  intros Ht ->. pose proof Ht as (row & [A pr p l] & H1 & H2 & H3 & H4). rewrite ptop_nth in H3.
  assert (has 0 A pr (S p)) as Hz by (eapply (l_fwd _ _ _ _ _ _ _ _ L); eauto; exists row, l; auto).
  apply (l_zero _ _ _ _ _ _ _ _ L) in Hz. discriminate.
Qed.

Lemma path_zero qs Xs k : path qs Xs -> nth_error qs k = Some 0 -> k = length Xs.
Proof.
  intros H. revert k. induction H as [|q qs X Xs n H IH Ht]; intros [|k] E; simpl in *; auto; try (now destruct k).
  - injection E as ->. apply tr_nonzero in Ht. congruence.
Qed.

(** a complete start item on the stack means the whole stack spells the start production *)
Lemma acc_path q qs Xs pr : start_fresh rules start ->
  path (q :: qs) Xs -> has q start pr (length (fst pr)) -> pr = p0 /\ rev Xs = fst p0.
Proof.
  intros Hf Hp Hh. destruct (path_item _ _ _ _ _ _ _ _ L _ _ _ _ _ _ Hp Hh) as (H1 & H2 & q' & H3 & H4).
  pose proof (l_just _ _ _ _ _ _ _ _ L _ _ _ _ H4) as J.
  apply just_inv0 in J as [(-> & _ & ->)|(A & pr1 & p & J1 & Hn & Hpr)].
  - split; auto. rewrite firstn_all in H2. apply (path_zero _ _ _ Hp) in H3. rewrite H3, firstn_all in H2. exact H2.
  - exfalso. apply (just_has _ _ _ _ _ _ _ _ L) in J1. apply (l_valid _ _ _ _ _ _ _ _ L) in J1 as [Hp1 _].
    apply (Hf _ _ _ Hp1). eapply nth_error_In; eauto.
Qed.

Section Run.
Context {M : Type}.
Variable maps : reductmap T M.
Hypothesis Hcov : covers rules maps.
Hypothesis Heof : term rules eof.
Notation sinv := (sinv eof sts sfk acts maps).
Notation vinv := (vinv g maps).

(** a token whose type is a nonterminal is never consumed *)
Lemma nonterm_travel fuel (d : dfa T M) s d' : d_table d = acts -> nonterm rules s -> d_buffer d <> [] ->
  travel fuel d s = Val (d', Ok) -> d_table d' = acts /\ d_buffer d' = d_buffer d /\ d_finished d' = d_finished d.
Proof.
  revert d s. induction fuel as [|n IH]; intros d s Et Hs Hb E; simpl in E; [discriminate|].
  destruct (nth_error (d_table d) (d_top d)) as [st|] eqn:Er; [|congruence].
  destruct (bm_get s st) as [a|] eqn:Ea; [|congruence].
  assert (entry acts (d_top d) s = Some a) as Een by (unfold entry; rewrite <- Et, Er; auto).
  destruct a as [m|m|A pr| |a b].
  - apply (entry_shift _ _ _ _ _ _ _ _ L) in Een as [Een _]. contradiction.
  - injection E as <-. auto.
  - inv_bind E. unfold dfa_pop in H. destruct (length (d_items d) <? length (fst pr)); [discriminate|].
    inv_bind H. inv_bind H2. inv_bind H3. injection H4 as <-. apply IH in H0; auto.
    apply (entry_reduce _ _ _ _ _ _ _ _ L) in Een as [_ Een]. apply hasl_has in Een.
    apply (l_valid _ _ _ _ _ _ _ _ L) in Een as [Een _]. now apply prod_nonterm in Een.
  - unfold dfa_accept in E. destruct (d_buffer d); congruence.
  - congruence.
Qed.

Lemma nonterm_never_ok (d : dfa T M) r : runs d r -> d_table d = acts -> d_finished d = false ->
  (exists tok rest, d_buffer d = tok :: rest /\ nonterm rules (tk_ty tok)) -> snd r <> Ok.
Proof.
  revert d r. refine (runs_ind (fun d r => _) _ _ _);
    [intros d Ef|intros d d' e Ef S|intros d d' r Ef (f & S) R IH]; intros Et Ef' (tok & rest & Eb & Hn); try congruence.
  - simpl. congruence.
  - assert (lookahead d = tk_ty tok) as El by (unfold lookahead; now rewrite Eb). rewrite El in S.
    apply nonterm_travel in S as (H1 & H2 & H3); auto; [|congruence]. apply IH; auto; try congruence.
    exists tok, rest. split; congruence.
Qed.

(** what an accepting run means *)
Lemma run_ok input d' : start_fresh rules start ->
  runs (dfa_new input acts maps eof) (d', Ok) ->
  exists its, evals_seq rules maps (fst p0) input its /\ d_items d' = rev its.
Proof.
  intros Hf.
  assert (G : forall d r, runs d r -> sinv d -> vinv input d ->
     (d_finished d = true -> d_buffer d = [] /\ rev (map tk_ty (d_items d)) = fst p0) -> 
     snd r = Ok -> exists its, evals_seq rules maps (fst p0) input its /\ d_items (fst r) = rev its).
  { refine (runs_ind (fun d r => _) _ _ _); [intros d Ef|intros d d1 e Ef S|intros d d1 r Ef S R IH]; intros Hs Hv Hd Eo.
    - destruct (Hd Ef) as [Eb Ei]. destruct Hv as (used & E & Hv). rewrite Eb, app_nil_r in E. subst used.
      rewrite Ei in Hv. exists (rev (d_items d)). simpl. rewrite rev_involutive. auto.
    - simpl in Eo. discriminate.
    - destruct (nonterm_dec rules (lookahead d)) as [Hn|Ht].
      + exfalso. assert (runs d r) as R' by (eapply runs_step; eauto).
        destruct (d_buffer d) as [|tok rest] eqn:Eb.
        * unfold lookahead in Hn. rewrite Eb in Hn. rewrite (si_eof _ _ _ _ _ _ Hs) in Hn. contradiction.
        * apply (nonterm_never_ok _ _ R'); auto. { apply (si_table _ _ _ _ _ _ Hs). }
          exists tok, rest. split; auto. unfold lookahead in Hn. now rewrite Eb in Hn.
      + pose proof (step_inv _ _ _ _ _ _ _ _ L maps _ _ _ Hs S) as SR.
        apply IH; auto.
        * eapply step_sinv; eauto.
        * eapply step_vinv; eauto.
        * intros Ef1. inversion SR as [tok rest n Eb E|n Eb E|n E|E Eb|E Eb|a b E|m Em E|A pr q n fs f E Efs Ef' Eq Et Eg|A pr q a b fs f E Efs Ef' Eq Eg];
            subst; simpl in Ef1; try congruence. simpl.
          split; auto. apply (entry_acc _ _ _ _ _ _ _ _ L) in E as (pr & Hh). apply hasl_has in Hh.
          destruct Hs as [St Sp Stop Sm Se]. destruct (d_states d) as [|q0 qs] eqn:Eqs; [discriminate|].
          simpl in Stop. injection Stop as ->. eapply acc_path in Sp as [_ Sp]; eauto. }
  intros R. eapply G in R; eauto.
  - apply dfa_new_sinv.
  - exists []. simpl. split; auto. constructor.
  - simpl. discriminate.
Qed.

(** what an accepting run means when the start symbol may occur in right-hand sides *)
Lemma run_acc input d' :
  runs (dfa_new input acts maps eof) (d', Ok) ->
  exists u pr its, prod_at rules start (snd pr) (fst pr) /\ evals_seq rules maps (u ++ fst pr) input its /\ d_items d' = rev its.
Proof.
  assert (G : forall d r, runs d r -> sinv d -> vinv input d ->
     (d_finished d = true -> d_buffer d = [] /\ exists u pr, prod_at rules start (snd pr) (fst pr) /\ rev (map tk_ty (d_items d)) = u ++ fst pr) -> 
     snd r = Ok -> exists u pr its, prod_at rules start (snd pr) (fst pr) /\ evals_seq rules maps (u ++ fst pr) input its /\ d_items (fst r) = rev its).
  { refine (runs_ind (fun d r => _) _ _ _); [intros d Ef|intros d d1 e Ef S|intros d d1 r Ef S R IH]; intros Hs Hv Hd Eo.
    - destruct (Hd Ef) as (Eb & u & pr & Hpr & Ei). destruct Hv as (used & E & Hv). rewrite Eb, app_nil_r in E. subst used.
      rewrite Ei in Hv. exists u, pr, (rev (d_items d)). simpl. rewrite rev_involutive. auto.
    - simpl in Eo. discriminate.
    - destruct (nonterm_dec rules (lookahead d)) as [Hn|Ht].
      + exfalso. assert (runs d r) as R' by (eapply runs_step; eauto).
        destruct (d_buffer d) as [|tok rest] eqn:Eb.
        * unfold lookahead in Hn. rewrite Eb in Hn. rewrite (si_eof _ _ _ _ _ _ Hs) in Hn. contradiction.
        * apply (nonterm_never_ok _ _ R'); auto. { apply (si_table _ _ _ _ _ _ Hs). }
          exists tok, rest. split; auto. unfold lookahead in Hn. now rewrite Eb in Hn.
      + pose proof (step_inv _ _ _ _ _ _ _ _ L maps _ _ _ Hs S) as SR.
        apply IH; auto.
        * eapply step_sinv; eauto.
        * eapply step_vinv; eauto.
        * intros Ef1. inversion SR as [tok rest n Eb E|n Eb E|n E|E Eb|E Eb|a b E|m Em E|A pr q n fs f E Efs Ef' Eq Et Eg|A pr q a b fs f E Efs Ef' Eq Eg];
            subst; simpl in Ef1; try congruence. simpl.
          split; auto. apply (entry_acc _ _ _ _ _ _ _ _ L) in E as (pr & Hh). apply hasl_has in Hh.
          destruct Hs as [St Sp Stop Sm Se]. destruct (d_states d) as [|q0 qs] eqn:Eqs; [discriminate|].
          simpl in Stop. injection Stop as ->. 
          pose proof (l_valid _ _ _ _ _ _ _ _ L _ _ _ _ Hh) as [Hpr _]. destruct (path_item _ _ _ _ _ _ _ _ L _ _ _ _ _ _ Sp Hh) as (H1 & H2 & _).
          rewrite firstn_all in H2. exists (rev (skipn (length (fst pr)) (map tk_ty (d_items d)))), pr. split; auto.
          rewrite <- (firstn_skipn (length (fst pr)) (map tk_ty (d_items d))) at 1. rewrite rev_app_distr. now f_equal. }
  intros R. eapply G in R; eauto.
  - apply dfa_new_sinv.
  - exists []. simpl. split; auto. constructor.
  - simpl. discriminate.
Qed.

(** acceptance implies membership *)
Lemma run_sound input d' : start_fresh rules start ->
  runs (dfa_new input acts maps eof) (d', Ok) -> sentence rules start (map tk_ty input).
Proof.
  intros Hf R. destruct (run_ok _ _ Hf R) as (its & Hv & _).
  apply (proj2 (evals_derives rules maps)) in Hv as [Hd Ht]. split; auto.
  eapply derives_trans; [|exact Hd]. eapply derives_prod.
  apply (l_valid _ _ _ _ _ _ _ _ L _ _ _ _ (l_start _ _ _ _ _ _ _ _ L)).
Qed.

(** ** no internal failure *)
Definition terms (d : dfa T M) : Prop := Forall (term rules) (map tk_ty (d_buffer d)).

Lemma terms_look d : sinv d -> terms d -> term rules (lookahead d).
Proof.
  intros Hs Ht. unfold lookahead. destruct (d_buffer d) eqn:Eb.
  - now rewrite (si_eof _ _ _ _ _ _ Hs).
  - unfold terms in Ht. rewrite Eb in Ht. now inversion Ht.
Qed.

Lemma step_terms d d' : terms d -> stepR eof sts sfk acts maps d d' Ok -> terms d'.
Proof.
  unfold terms. intros Ht H. inversion H; subst; simpl; auto. rewrite H0 in Ht. now inversion Ht.
Qed.

Lemma step_inv' d d' o : sinv d -> terms d -> stepsto d (d', o) -> 
  stepR eof sts sfk acts maps d d' o /\ (o = Ok -> sinv d' /\ terms d').
Proof.
  intros Hs Ht S. pose proof (step_inv _ _ _ _ _ _ _ _ L maps _ _ _ Hs S) as SR. split; auto.
  intros ->. split; [eapply step_sinv; eauto; now apply terms_look|eapply step_terms; eauto].
Qed.

Lemma steps_inv d d' : steps d d' -> sinv d -> terms d -> sinv d' /\ terms d'.
Proof.
  induction 1 as [|d d1 d2 Ef S H IH]; auto. intros Hs Ht.
  apply step_inv' in S as [_ S]; auto. destruct (S eq_refl). auto.
Qed.

Definition benign (d : dfa T M) (o : outcome T) : Prop :=
  match o with
  | Err MissingPreviousState | Err StateNotSpecified => False
  | Err UnexpectedEof => d_buffer d = [] /\ exists A i rhs, prod_at rules A i rhs /\ In eof rhs
  | Err IncompleteExec => exists tok rest, d_buffer d = tok :: rest /\ entry acts (d_top d) (tk_ty tok) = Some Acc
  | Err (UnexpectedToken t es) => t = lookahead d /\ exists m, nth_error acts (d_top d) = Some m /\ es = bm_keys m /\ ~ In t es
  | _ => True
  end.

Lemma step_benign d d' o : sinv d -> terms d -> stepsto d (d', o) -> benign d' o.
Proof.
  intros Hs Ht S. apply step_inv' in S as [SR _]; auto. destruct SR; simpl; auto.
  - split; auto. apply (entry_shift _ _ _ _ _ _ _ _ L) in H0 as (_ & row & [A pr p l] & H1 & H2 & H3 & _).
    rewrite ptop_nth in H3. exists A, (snd pr), (fst pr). split.
    + eapply (l_valid _ _ _ _ _ _ _ _ L). exists row, l. eauto.
    + eapply nth_error_In; eauto.
  - unfold accepted. simpl. destruct (d_buffer d) as [|tok rest] eqn:Eb; [congruence|]. exists tok, rest. split; auto.
    unfold lookahead in H. now rewrite Eb in H.
  - split; auto. exists m. split; auto. split; auto. rewrite <- bm_get_none. auto.
Qed.

Lemma run_benign d r : runs d r -> sinv d -> terms d -> benign (fst r) (snd r).
Proof.
  revert d r. refine (runs_ind (fun d r => _) _ _ _); [intros d Ef|intros d d1 e Ef S|intros d d1 r Ef S R IH]; intros Hs Ht.
  - exact I.
  - eapply step_benign; eauto.
  - apply step_inv' in S as [_ S]; auto. destruct (S eq_refl). auto.
Qed.

Lemma run_no_panic fuel d p : sinv d -> terms d -> dfa_start fuel d <> Panic p.
Proof.
  revert d. induction fuel as [|n IH]; intros d Hs Ht; simpl; [discriminate|].
  destruct (d_finished d) eqn:Ef; [discriminate|].
  destruct (step_total _ _ _ _ _ _ _ _ L maps d Hcov Hs) as (d' & o & (f & S) & SR).
  destruct (travel n d (lookahead d)) as [[d1 o1]|p'|] eqn:E; simpl; try discriminate.
  - destruct (step_inv' d d1 o1) as [_ H]; auto; [now exists n|]. destruct o1; [|discriminate].
    destruct (H eq_refl). auto.
  - exfalso. pose proof (travel_mono' f d (lookahead d)) as M1. pose proof (travel_mono' n d (lookahead d)) as M2.
    rewrite E in M2. rewrite S in M1. 
    assert (travel (max f n) d (lookahead d) = Val (d', o)) as E1 by (apply M1; [discriminate|lia]).
    assert (travel (max f n) d (lookahead d) = Panic p') as E2 by (apply M2; [discriminate|lia]). congruence.
Qed.
End Run.
End Sound.
