(** Lookaheads passed on are the LALR(1) ones (C123). *)
From Coq Require Import List Bool Arith Lia.
From Verif Require Import BTree Model Base Spec SpecP Interface GrammarP FirstFollow Closure Canon ActTab LR Sound CanonLR Prefix Merged Lalr LalrLR Agree Wrap Final Export LR1Spec ValidSpec Cores Handle HandleF Valid.
Import ListNotations.

Section Auto.
Context {T : Type} {OT : Ord T}.
Variables (g : grammar T) (start eof : T) (p0 : production T) (t : tabler T).
Variable sfk : state T -> option nat.
Variable lookf : position T -> res (bset T).
Notation rules := (g_rules g).
Notation sts := (t_states t).
Notation has := (has sts).
Notation hasl := (hasl sts lookf).
Notation path := (path sts sfk).
Notation tr := (tr sts sfk).
Notation rsf := (rsf rules start).
Notation passed := (passed rules start eof t).
Hypothesis L : lr0 g start eof p0 sts sfk lookf (t_actions t).
Hypothesis Hone : forall i rhs, prod_at rules start i rhs -> (rhs, i) = p0.
Hypothesis Hprod : productive rules.
Hypothesis Hreach : forall q, q < length sts -> exists qs Xs, path (q :: qs) Xs.

Lemma passed_rsf q A i u v x : passed q A i u v x -> prod_at rules A i (u ++ v) /\ exists qs Xs a w, path (q :: qs) Xs /\ rsf a A w /\ rev Xs = a ++ u /\ next eof w = x.
Proof.
  induction 1 as [i rhs H|q A i u X v x n H (Hp & qs & Xs & a & w & P & R & E & N) Hm|q A i u B Y v j rhs x H Hp Hf|q A i u B j rhs x H (Hp & qs & Xs & a & w & P & R & E & N) Hq].
  - apply item_has, (l_valid _ _ _ _ _ _ _ _ L) in H as [H _]. split; auto. exists [], [], [], []. repeat split; constructor.
  - split; [now rewrite <- app_assoc|]. exists (q :: qs), (X :: Xs), a, w. split; [|split; auto; split; auto].
    + econstructor; eauto. eapply moves_tr; eauto.
    + simpl. now rewrite E, app_assoc.
  - split; auto. apply item_has in H. destruct (Hreach q) as (qs & Xs & P); [eapply has_row; eauto|].
    destruct (has_rsf _ _ _ _ _ _ _ _ L Hprod _ _ _ _ _ _ P H) as (a & w & R & E). cbn [fst] in E.
    rewrite firstn_app, firstn_all, Nat.sub_diag, app_nil_r in E.
    destruct Hf as [Tx (v1 & D1)]. destruct (productive_str g (v1 ++ v) Hprod) as (v2 & D & Tv).
    apply (l_valid _ _ _ _ _ _ _ _ L) in H as [H _]. cbn [fst snd] in H.
    exists qs, Xs, (a ++ u), ((x :: v2) ++ w). split; auto. split; [|split; [now rewrite app_nil_r|reflexivity]].
    eapply rsf_sub; eauto. change (Y :: v) with ([Y] ++ v). eapply derives_trans; [apply derives_app; [exact D1|constructor]|]. now apply (derives_cons _ x).
  - split; auto. exists qs, Xs, (a ++ u), ([] ++ w). split; auto. split; [|split; [now rewrite app_nil_r|auto]].
    eapply rsf_sub; eauto. constructor.
Qed.

Lemma passed_walk A i x v : forall u v0 q qs Xs, path (q :: qs) Xs -> has q A (u ++ v ++ v0, i) (length u) -> passed q A i u (v ++ v0) x ->
  exists q' qs', path (q' :: qs') (rev v ++ Xs) /\ passed q' A i (u ++ v) v0 x.
Proof.
  induction v as [|X v IH]; intros u v0 q qs Xs P Hh H; [exists q, qs; rewrite app_nil_r; auto|].
  assert (nth_error (fst (u ++ (X :: v) ++ v0, i)) (length u) = Some X) as E by (cbn; rewrite nth_error_app2, Nat.sub_diag; auto).
  destruct (l_tr _ _ _ _ _ _ _ _ L _ _ _ _ _ Hh E) as (n & Ht).
  pose proof (l_fwd _ _ _ _ _ _ _ _ L _ _ _ _ _ _ Ht Hh E) as Hn.
  destruct (IH (u ++ [X]) v0 n (q :: qs) (X :: Xs)) as (q' & qs' & P' & H').
  - econstructor; eauto.
  - rewrite <- app_assoc, app_length, Nat.add_1_r. exact Hn.
  - eapply pass_move; [exact H|]. eapply tr_moves; eauto.
  - exists q', qs'. rewrite <- app_assoc in H'. simpl. rewrite <- app_assoc. auto.
Qed.

Lemma rsf_passed d A w : rsf d A w -> forall i u v, prod_at rules A i (u ++ v) ->
  exists q qs, path (q :: qs) (rev (d ++ u)) /\ passed q A i u v (next eof w).
Proof.
  induction 1 as [|d B x j b1 A b2 z H IH Hp Hd Hv]; intros i u v Hpr.
  - pose proof (l_start _ _ _ _ _ _ _ _ L) as Hs. rewrite <- (Hone _ _ Hpr) in Hs.
    destruct (passed_walk start i eof u [] v 0 [] []) as (q & qs & P & Hq).
    + constructor.
    + exact Hs.
    + constructor. now apply item_has.
    + rewrite app_nil_r in P. eauto.
  - destruct (IH _ b1 (A :: b2) Hp) as (q & qs & P & Hq).
    destruct (rsf_has _ _ _ _ _ _ _ _ L Hone _ _ _ H _ _ (length b1) Hp) as (q1 & qs1 & P1 & Hh); [rewrite app_length; lia|].
    rewrite firstn_app, firstn_all, Nat.sub_diag, app_nil_r in P1. pose proof (path_fun _ _ _ _ P _ P1) as E. injection E as <- <-.
    assert (passed q A i [] (u ++ v) (next eof (z ++ x))) as H0.
    { destruct b2 as [|Y b3].
      - apply derives_nil in Hd. subst z. simpl. eapply pass_last; eauto.
      - assert (exists y v', z = y :: v' /\ first_spec rules Y y) as (y & v' & -> & Hf).
        { destruct z as [|y v'].
          - apply (derives_nonempty _ _ _ (l_noempty _ _ _ _ _ _ _ _ L)) in Hd. simpl in Hd. lia.
          - exists y, v'. split; auto. inversion Hv; subst. split; auto. change (Y :: b3) with ([Y] ++ b3) in Hd.
            apply derives_split in Hd as (w1 & w2 & E & D1 & D2). destruct w1 as [|y1 w1].
            + apply (derives_nonempty _ _ _ (l_noempty _ _ _ _ _ _ _ _ L)) in D1. simpl in D1. lia.
            + injection E as <- _. eauto. }
        simpl. apply (pass_first _ _ _ _ q B j b1 A Y b3 i (u ++ v) y); auto. apply item_has. exact Hh. }
    assert (has q A (u ++ v, i) 0) as Hh0.
    { eapply (l_clo _ _ _ _ _ _ _ _ L); eauto. simpl. rewrite nth_error_app2, Nat.sub_diag; auto. }
    destruct (passed_walk A i _ u [] v _ _ _ P Hh0 H0) as (q' & qs' & P' & H'). exists q', qs'. rewrite rev_app_distr. auto.
Qed.

Hypothesis Hinj : forall q q', q < length sts -> q' < length sts -> alike sts q q' -> q = q'.

Lemma path_len q qs Xs : path (q :: qs) Xs -> q < length sts.
Proof.
  intros P. inversion P as [|q1 qs1 X Xs1 n P1 Ht]; subst.
  - eapply has_row. apply (l_start _ _ _ _ _ _ _ _ L).
  - eapply (l_len _ _ _ _ _ _ _ _ L); eauto.
Qed.

Lemma passed_lalr q qs Xs A i u v x : path (q :: qs) Xs -> (passed q A i u v x <-> lalr1_look rules start eof (rev Xs) A i u v x).
Proof.
  intros P. split.
  - intros H. apply passed_rsf in H as (Hp & qs' & Xs' & a & w & P' & R & E & N). exists (rev Xs'). split.
    + eapply (alike_same _ _ _ _ _ _ _ _ L Hone Hprod); rewrite ?rev_involutive; eauto. intros ? ? ?. reflexivity.
    + split; auto. exists a, w. repeat split; eauto using rsf_rms, rsf_term.
  - intros (pre & Hs & Hp & a & w & R & Tw & -> & N). apply rms_rsf in R; auto; [|eapply prod_nonterm; eauto].
    destruct (rsf_passed _ _ _ R _ _ _ Hp) as (q' & qs' & P' & H'). rewrite N in H'.
    assert (q = q') as ->; auto. apply Hinj; [eapply path_len; eauto|eapply path_len; eauto|].
    apply (same_alike _ _ _ _ _ _ _ _ L Hone Hprod q qs (rev Xs) q' qs' (a ++ u)); rewrite ?rev_involutive; auto.
Qed.
End Auto.

Section PassF.
Context {T : Type} {OT : Ord T}.
Variables (dbg : bool) (start eof : T) (rules : rulemap T) (g : grammar T).
Hypothesis W : wf_rules rules.
Hypothesis Hg : grammar_new dbg start rules eof = Val g.

Lemma carries_hands_on k t : makes k dbg g t -> carries t -> hands_on t.
Proof.
  intros Hm Hc q A i u X v x n (row & [A' pr p l] & E & H & E1 & E2 & E3 & E4) Hmv. cbn in E1, E2, E3, E4. subst.
  destruct (Wp0 _ _ _ _ _ W Hg) as (p0 & Hp0 & _). destruct (makes_made _ _ _ _ _ W Hg _ _ _ Hm Hp0) as (sfk & lookf & Z).
  pose proof (m_lr0 _ _ _ _ _ _ _ _ _ _ Z) as L. pose proof (moves_tr _ _ _ _ _ _ _ _ _ _ L Hmv) as Ht.
  pose proof (l_len _ _ _ _ _ _ _ _ L _ _ _ Ht) as Hlen. apply nth_error_Some in Hlen.
  destruct (nth_error (t_states t) n) as [row'|] eqn:En; [|congruence].
  destruct (Hc q X n row row' _ Hmv E En H) as ([A1 pr1 p1 l1] & Hi & F1 & F2 & F3 & Hinc).
  { cbn. now rewrite nth_error_app2, Nat.sub_diag by auto. }
  cbn in F1, F2, F3, Hinc. subst. exists row', (mkPos A (u ++ X :: v, i) (S (length u)) l1). cbn. rewrite <- app_assoc, app_length, Nat.add_1_r. auto 8.
Qed.

Lemma lalr_exact t : makes LALR dbg g t -> term rules eof -> dbg = true \/ single_start rules start -> dbg = true \/ only_terminals t -> productive rules ->
  (forall q qs xs, stack_path t (q :: qs) xs -> forall A i u v x, passed rules start eof t q A i u v x <-> lalr1_look rules start eof (rev xs) A i u v x) /\
  (hands_on t /\ grounded rules start eof t <->
   forall q qs xs, stack_path t (q :: qs) xs -> forall A i u v x, item_look t q A i u v x <-> lalr1_look rules start eof (rev xs) A i u v x).
Proof.
  intros Hm He Hs0 Ho Hp. assert (single_start rules start) as Hs by (destruct Hs0; eauto using debug_single). pose proof (Er _ _ _ _ _ Hg) as ER.
  destruct (makes_terminals _ _ _ _ _ W Hg _ _ Hm Ho) as (t1 & Ht & _ & _ & Hf & _). pose proof (tmakes_facts _ _ _ _ _ W Hg _ Ht) as F.
  destruct (makes_with _ _ _ _ _ W Hg _ _ _ Ht Hm) as (fm & p & Em). destruct (Wp0 _ _ _ _ _ W Hg) as (p0 & Hp0 & _).
  destruct (lalr_inv _ _ _ _ _ W Hg _ F _ _ _ Em) as (_ & _ & _ & E2 & _).
  pose proof (lalr_lr0 _ _ _ _ _ W Hg _ F _ _ _ Em _ Hp0) as L. pose proof (one_start _ _ _ _ _ W Hg _ Hp0 Hs) as H2.
  pose proof (lalr_inj _ _ _ _ _ W Hg _ _ _ _ F Em) as Hinj.
  assert (Q : forall q A pr k x, hasl (l_states p) clr_look q A pr k x -> term (g_rules g) x).
  { intros q A pr k x H. rewrite ER. exact (lalr_look _ _ _ _ _ W Hg _ F _ _ _ Em _ _ _ _ _ _ (Qterm _ _ _ _ _ _ F He Hf) H). }
  pose proof (lalr_reach _ _ _ _ _ W Hg _ F _ _ _ Em) as Hreach.
  assert (IL : forall q A i u v x, item_look t q A i u v x <-> hasl (t_states t) clr_look q A (u ++ v, i) (length u) x).
  { intros q A i u v x. rewrite E2, (lalr_hasl p), <- E2. split.
    - intros (row & [A' pr k l] & E & H & E1 & E3 & E4 & E5). cbn in *. subst. eauto.
    - intros (row & l & E & H & E4). exists row, (mkPos A (u ++ v, i) (length u) l). cbn. auto 8. }
  rewrite <- E2 in L, Hinj, Q, Hreach. rewrite <- ER in He, Hp |- *.
  assert (HP : forall q qs xs, stack_path t (q :: qs) xs -> forall A i u v x, passed (g_rules g) start eof t q A i u v x <-> lalr1_look (g_rules g) start eof (rev xs) A i u v x).
  { intros q qs xs P A i u v x. apply (moves_path _ _ _ _ _ _ _ _ _ L) in P. exact (passed_lalr _ _ _ _ _ _ _ L H2 Hp Hreach Hinj _ _ _ _ _ _ _ _ P). }
  split; auto. split.
  - intros [Hh Hgr] q qs xs P A i u v x. rewrite <- (HP _ _ _ P). split; [apply Hgr|].
    assert (C : lr1c g start eof p0 (t_states t) (sfk_lalr p) clr_look).
    { rewrite E2. eapply lalr_lr1c; eauto. intros q1 X n A1 [rhs k1] k x1 Hx Hl Hn. rewrite <- E2 in Hx, Hl |- *. cbn [fst] in Hn.
      pose proof (nth_error_split _ _ Hn) as (u1 & v1 & -> & <-).
      assert (item_look t n A1 k1 (u1 ++ [X]) v1 x1) as H.
      { eapply Hh; [apply IL; exact Hl|]. eapply tr_moves; eauto. }
      apply IL in H. now rewrite <- app_assoc, app_length, Nat.add_1_r in H. }
    clear qs xs P. intros H. apply IL. induction H as [i rhs H|q A i u X v x n H IH Hmv|q A i u B Y v j rhs x H Hpr Hfs|q A i u B j rhs x H IH Hpr].
    + apply item_has, (l_valid _ _ _ _ _ _ _ _ L) in H as [H _]. cbn [fst snd app] in H. cbn [app length]. rewrite (H2 _ _ H). apply (c_start _ _ _ _ _ _ _ C).
    + apply IL. eapply Hh; eauto. now apply IL.
    + apply item_has in H. eapply (c_first _ _ _ _ _ _ _ C); eauto; cbn [fst]; [rewrite nth_error_app2, Nat.sub_diag by auto; reflexivity|].
      rewrite nth_error_app2 by lia. now replace (S (length u) - length u) with 1 by lia.
    + refine (c_last _ _ _ _ _ _ _ C q A (u ++ [B], i) (length u) B j rhs x _ IH _ _ Hpr); cbn [fst].
      * apply (passed_rsf _ _ _ _ _ _ _ L Hp Hreach) in H as (_ & qs & Xs & a & w & _ & R & _ & <-). apply (next_term g eof He). eauto using rsf_term.
      * now rewrite nth_error_app2, Nat.sub_diag by auto.
      * apply nth_error_None. rewrite app_length. simpl. lia.
  - intros HE.
    assert (RP : forall q, q < length (t_states t) -> exists qs xs, stack_path t (q :: qs) xs).
    { intros q Hq. destruct (Hreach q Hq) as (qs & xs & P). exists qs, xs. eapply path_moves; eauto. }
    assert (IP : forall q A i u v x, item_look t q A i u v x <-> passed (g_rules g) start eof t q A i u v x).
    { intros q A i u v x. split; intros H.
      - destruct (RP q) as (qs & xs & P). { apply IL, hasl_has in H. eapply has_row; eauto. } apply (HP _ _ _ P), (HE _ _ _ P), H.
      - destruct (passed_rsf _ _ _ _ _ _ _ L Hp Hreach _ _ _ _ _ _ H) as (_ & qs & xs & _ & _ & P & _).
        apply (path_moves _ _ _ _ _ _ _ _ _ L) in P. apply (HE _ _ _ P), (HP _ _ _ P), H. }
    split.
    + intros q A i u X v x n H Hmv. apply IP. apply IP in H. eapply pass_move; eauto.
    + intros q A i u v x. apply IP.
Qed.
End PassF.
