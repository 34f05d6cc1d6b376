(** Termination of runs (C19, C20) *)
From Coq Require Import List Bool Arith Lia.
From Coq Require Import Relation_Operators.
From Verif Require Import BTree Model Base Spec SpecP GrammarP FirstFollow Closure ActTab LR Sound CanonLR Complete Locality Prefix.
Import ListNotations.

(** a finite relation without cycles is well-founded *)
Lemma acyclic_acc {A} (R : A -> A -> Prop) (U : list A) :
  (forall x y : A, {x = y} + {x <> y}) ->
  (forall x y, R x y -> In x U /\ In y U) -> (forall x, ~ clos_trans _ R x x) -> forall x, Wf.Acc R x.
Proof.
  intros dec HU Hc.
  assert (G : forall n vis x, NoDup vis -> incl vis U -> (forall v, In v vis -> clos_trans _ R x v) ->
     length U - length vis < n -> Wf.Acc R x).
  { induction n as [|n IH]; intros vis x Hnd Hin Hv Hn; [lia|]. constructor. intros y Hy.
    destruct (HU _ _ Hy) as [_ Hx]. assert (NoDup (x :: vis)) as Hnd'.
    { constructor; auto. intros Hxv. apply (Hc x). auto. }
    assert (incl (x :: vis) U) as Hin' by (intros z [<-|Hz]; auto).
    pose proof (NoDup_incl_length Hnd' Hin') as Hl. simpl in Hl.
    apply (IH (x :: vis) y); auto.
    - intros v [<-|Hvv]; [now constructor|]. eapply t_trans; [constructor; exact Hy|]. auto.
    - simpl. lia. }
  intros x. apply (G (S (length U)) [] x); auto; [constructor|easy|intros v []|simpl; lia].
Qed.

Lemma length_cons {A} (x : A) l : length (x :: l) = S (length l).
Proof. reflexivity. Qed.

Section Halt.
Context {T : Type} {OT : Ord T}.
Variables (g : grammar T) (start eof : T) (p0 : production T).
Variable sts : list (state T).
Variable sfk : state T -> option nat.
Variable lookf : position T -> res (bset T).
Variable acts : acttable T.
Notation rules := (g_rules g).
Notation lr0 := (lr0 g start eof p0 sts sfk lookf acts).
Notation has := (has sts).
Notation hasl := (hasl sts lookf).
Notation tr := (tr sts sfk).
Notation path := (path sts sfk).
Notation just := (just g start p0 sts).
Notation justl := (justl g start eof p0 sts lookf).
Hypothesis L : lr0.
Hypothesis Heof : term rules eof.

(** if [Y] can begin with [t] then some item expects [t] *)
Lemma first_item q Y t : lcorner rules Y t -> term rules t -> forall A pr p, has q A pr p -> nth_error (fst pr) p = Some Y ->
  exists A' pr' p', has q A' pr' p' /\ nth_error (fst pr') p' = Some t.
Proof.
  intros H Ht. induction H as [|X i Y v t Hpr H IH]; intros A pr p Hh Hn; [eauto|].
  eapply (IH Ht X (Y :: v, i) 0); [|reflexivity]. eapply (l_clo _ _ _ _ _ _ _ _ L); eauto.
Qed.

Section Run.
Context {M : Type}.
Variable maps : reductmap T M.
Hypothesis Hcov : covers rules maps.
Notation sinv := (sinv eof sts sfk acts maps).
Notation stepR := (stepR eof sts sfk acts maps).
Notation terms := (terms g).

Definition halts (d : dfa T M) : Prop := exists r, runs d r.

Lemma halts_step d d' : d_finished d = false -> stepsto d (d', Ok) -> halts d' -> halts d.
Proof. intros Ef S (r & R). exists r. eapply runs_step; eauto. Qed.
Lemma halts_err d d' e : d_finished d = false -> stepsto d (d', Err e) -> halts d.
Proof. intros Ef S. exists (d', Err e). now apply runs_err. Qed.
Lemma halts_fin d : d_finished d = true -> halts d.
Proof. intros Ef. exists (d, Ok). now apply runs_fin. Qed.
Lemma halts_outcome d d' o : d_finished d = false -> stepsto d (d', o) -> (o = Ok -> halts d') -> halts d.
Proof. destruct o; intros; [eapply halts_step; eauto|eapply halts_err; eauto]. Qed.

(** *** every table: no cyclic unit productions *)
Section Acyclic.
Hypothesis Hacyc : forall A, ~ clos_trans _ (fun A B => exists i, prod_at rules A i [B] /\ nonterm rules B) A A.

Lemma unit_acc : forall A, Wf.Acc (fun A B => exists i, prod_at rules A i [B] /\ nonterm rules B) A.
Proof.
  apply (acyclic_acc _ (bm_keys rules)); auto using ord_dec.
  intros A B (i & H & HB). split.
  - apply prod_nonterm in H as (r & Hr). apply bm_get_in in Hr. apply in_map_iff. exists (A, r). auto.
  - destruct HB as (r & Hr). apply bm_get_in in Hr. apply in_map_iff. exists (B, r). auto.
Qed.

Lemma acyclic_halts n : forall d, length (d_buffer d) <= n -> sinv d -> terms d -> halts d.
Proof.
  induction n as [n IHn] using (well_founded_induction lt_wf).
  assert (K : forall h d, length (d_items d) <= h -> length (d_buffer d) <= n -> sinv d -> terms d -> halts d).
  { induction h as [h IHh] using (well_founded_induction lt_wf).
    assert (G : forall d, length (d_items d) <= h -> length (d_buffer d) <= n -> sinv d -> terms d ->
       (forall A it its d', d_items d = it :: its -> (exists i, prod_at rules A i [tk_ty it] /\ nonterm rules (tk_ty it)) \/ term rules (tk_ty it) ->
          (exists it' , d_items d' = it' :: its /\ tk_ty it' = A) -> nonterm rules A -> d_buffer d' = d_buffer d -> sinv d' -> terms d' -> halts d') -> halts d).
    { intros d Hh Hn Hs Ht HR. destruct (d_finished d) eqn:Ef; [now apply halts_fin|].
      destruct (step_total _ _ _ _ _ _ _ _ L maps d Hcov Hs) as (d' & o & St & SR).
      apply (halts_outcome _ _ _ Ef St). intros ->.
      destruct (step_inv' _ _ _ _ _ _ _ _ L maps Heof _ _ _ Hs Ht St) as [_ H]. destruct (H eq_refl) as [Hs' Ht']. clear H.
      inversion SR as [tok rest m Eb E|m Eb E|m E|E Eb|E Eb|a b E|m Em E|A pr q m fs f E Efs Ef' Eq Et Eg|A pr q a b fs f E Efs Ef' Eq Eg];
        subst.
      - apply (IHn (length rest)); auto. rewrite Eb in Hn. simpl in Hn. lia.
      - apply (entry_goto _ _ _ _ _ _ _ _ L) in E as [E _]. exfalso. pose proof (terms_look g eof sts sfk acts maps Heof d Hs Ht) as Htl.
        contradiction.
      - now apply halts_fin.
      - apply (entry_reduce _ _ _ _ _ _ _ _ L) in E as [HA Hl]. apply hasl_has in Hl as Hh'.
        pose proof (si_path _ _ _ _ _ _ Hs) as Sp. pose proof (si_top _ _ _ _ _ _ Hs) as Stop.
        destruct (d_states d) as [|q0 qs] eqn:Eqs; [discriminate|]. simpl in Stop. injection Stop as ->.
        destruct (path_item _ _ _ _ _ _ _ _ L _ _ _ _ _ _ Sp Hh') as (H1 & H2 & _). rewrite firstn_all in H2.
        apply (l_valid _ _ _ _ _ _ _ _ L) in Hh' as [Hpr _].
        pose proof (l_noempty _ _ _ _ _ _ _ _ L _ _ _ Hpr) as Hne. rewrite map_length in H1.
        destruct (d_items d) as [|it its] eqn:Ei.
        { simpl in H1. destruct (fst pr); [congruence|simpl in H1; lia]. }
        destruct (fst pr) as [|X [|Y rhs]] eqn:Ep; [congruence| |].
        + simpl in H2. injection H2 as H2. apply (HR A it its _ eq_refl); auto.
          * destruct (nonterm_dec rules (tk_ty it)); auto. left. exists (snd pr). split; auto. now rewrite H2.
          * simpl. rewrite Ei. eexists. split; [reflexivity|reflexivity].
          * eapply prod_nonterm; eauto.
        + simpl in H1. apply (IHh (length (d_items (pushed d m (mkTok (f (rev (firstn (length (X :: Y :: rhs)) (it :: its)))) A) (d_buffer d) (length (X :: Y :: rhs)))))); auto.
          destruct its as [|it2 its]; [simpl in H1; lia|]. cbn [pushed d_items]. rewrite Ei. cbn [length skipn]. rewrite skipn_length. simpl in Hh. lia. }
    assert (G2 : forall A, Wf.Acc (fun A B => exists i, prod_at rules A i [B] /\ nonterm rules B) A -> nonterm rules A -> forall d it its,
      d_items d = it :: its -> tk_ty it = A -> length (d_items d) <= h -> length (d_buffer d) <= n -> sinv d -> terms d -> halts d).
    { intros A HA. induction HA as [A _ IHA]. intros HnA d it its Ei Ety Hh Hn Hs Ht. apply G; auto.
      intros B it1 its1 d' Ei1 [Hu|Hu] (it' & Ei' & Et') HB Eb Hs' Ht'.
      - rewrite Ei in Ei1. injection Ei1 as <- <-. rewrite Ety in Hu. apply (IHA B Hu HB d' it' its); auto.
        + rewrite Ei'. rewrite Ei in Hh. exact Hh.
        + now rewrite Eb.
      - rewrite Ei in Ei1. injection Ei1 as <- <-. rewrite Ety in Hu. contradiction. }
    intros d Hh Hn Hs Ht. apply G; auto. intros A it its d' Ei _ (it' & Ei' & Et') HA Eb Hs' Ht'.
    apply (G2 A (unit_acc A) HA d' it' its); auto.
    - rewrite Ei'. rewrite Ei in Hh. exact Hh.
    - now rewrite Eb. }
  intros d. apply (K (length (d_items d))); auto.
Qed.
End Acyclic.

(** *** canonical tables: always *)
Section Canonical.
Hypothesis C : lr1c g start eof p0 sts sfk lookf.
Hypothesis S1 : lr1s g start eof p0 sts sfk lookf.

Lemma justl_hasl q A pr p t : term rules t -> justl q A pr p t -> hasl q A pr p t.
Proof.
  intros Ht J. revert Ht.
  induction J as [|q A pr p t H|q A pr p B Y i rhs t J Hn Hy Hpr Hf|q A pr p B i rhs t J IH Hn Hy Hpr]; intros Ht; auto.
  - apply (c_start _ _ _ _ _ _ _ C).
  - apply (just_has _ _ _ _ _ _ _ _ L) in J. eapply (c_first _ _ _ _ _ _ _ C); eauto.
  - eapply (c_last _ _ _ _ _ _ _ C); eauto.
Qed.

Lemma path_hasl p : forall q qs Xs A pr t, path (q :: qs) Xs -> hasl q A pr p t ->
  exists q', nth_error (q :: qs) p = Some q' /\ hasl q' A pr 0 t.
Proof.
  induction p as [|p IH]; intros q qs Xs A pr t Hp Hh; [exists q; auto|].
  inversion Hp as [|q1 qs1 X Xs1 n Hp1 Ht]; subst.
  - apply hasl_has, (l_zero _ _ _ _ _ _ _ _ L) in Hh. discriminate.
  - apply (s_back _ _ _ _ _ _ _ S1 _ _ _ _ _ _ _ Ht) in Hh. destruct (IH _ _ _ _ _ _ Hp1 Hh) as (q' & H1 & H2). exists q'. auto.
Qed.

(** what the state reached after a reduction does with the lookahead *)
Lemma goto_case q A pr t n : term rules t -> justl q A pr 0 t -> A <> start -> tr q A n ->
  (exists m, entry acts n t = Some (Shift m)) \/ conflicted acts n t \/
  exists A1 pr1 p1, justl q A1 pr1 p1 t /\ S p1 = length (fst pr1) /\ nth_error (fst pr1) p1 = Some A /\
     entry acts n t = Some (if eqb A1 start then Acc else Reduce A1 pr1).
Proof.
  intros Ht J HA Htr.
  destruct (justl_inv0 _ _ _ _ _ _ _ _ _ _ J) as [(_ & E & _)|[(A1 & pr1 & p1 & Y & J1 & Hn & Hy & Hpr & Hf)|(A1 & pr1 & p1 & J1 & Hn & Hy & Hpr)]].
  - contradiction.
  - apply (just_has _ _ _ _ _ _ _ _ L) in J1. pose proof (l_fwd _ _ _ _ _ _ _ _ L _ _ _ _ _ _ Htr J1 Hn) as H1.
    apply first_lcorner in Hf as [_ Hf]; [|apply (l_noempty _ _ _ _ _ _ _ _ L)].
    destruct (first_item n Y t Hf Ht _ _ _ H1 Hy) as (A2 & pr2 & p2 & H2 & Hn2).
    destruct (l_tr _ _ _ _ _ _ _ _ L _ _ _ _ _ H2 Hn2) as (m & Hm).
    destruct (has_entry _ _ _ _ _ _ _ _ L _ _ _ _ _ _ H2 Hn2 Hm) as [E|E]; auto. left. exists m. rewrite E.
    replace (is_terminal g t) with true; auto. symmetry. now apply is_terminal_term.
  - right. assert (S p1 = length (fst pr1)) as El.
    { apply nth_error_None in Hy. assert (p1 < length (fst pr1)) by (apply nth_error_Some; congruence). lia. }
    apply (justl_hasl _ _ _ _ _ Ht) in J1 as Hl. pose proof (c_fwd _ _ _ _ _ _ _ C _ _ _ _ _ _ _ Htr Hl Hn) as Hl'.
    rewrite El in Hl'. destruct (hasl_entry _ _ _ _ _ _ _ _ L _ _ _ _ Hl') as [E|E]; auto.
    right. exists A1, pr1, p1. auto.
Qed.

Lemma reduced_entry q A pr t n : term rules t -> justl q A pr 0 t -> A <> start -> tr q A n -> entry acts n t <> None.
Proof.
  intros Ht J HA Htr E. destruct (goto_case q A pr t n Ht J HA Htr) as [(m & H)|[(a & b & H)|(A1 & pr1 & p1 & _ & _ & _ & H)]]; congruence.
Qed.

Lemma canonical_halts n : forall d, length (d_buffer d) <= n -> sinv d -> terms d -> halts d.
Proof.
  induction n as [n IHn] using (well_founded_induction lt_wf).
  assert (K : forall h q A pr p t, justl q A pr p t -> p = 0 -> A <> start -> term rules t -> forall d qs,
     length (d_items d) <= h -> length (d_buffer d) <= n -> sinv d -> terms d -> lookahead d = t ->
     d_states d = d_top d :: q :: qs -> tr q A (d_top d) -> halts d).
  { induction h as [h IHh] using (well_founded_induction lt_wf). intros q A pr p t J.
    induction J as [|q A pr p t Hk|q A pr p B Y i rhs t J Hn Hy Hpr Hf|q A pr p B i rhs t J IHJ Hn Hy Hpr];
      intros Ep HA Hter d qs Hh Hb Hs Ht El Eq Htr; try congruence.
    - destruct (d_finished d) eqn:Ef; [now apply halts_fin|].
      apply (just_has _ _ _ _ _ _ _ _ L) in J. pose proof (l_fwd _ _ _ _ _ _ _ _ L _ _ _ _ _ _ Htr J Hn) as H1.
      apply first_lcorner in Hf as [_ Hf]; [|apply (l_noempty _ _ _ _ _ _ _ _ L)].
      destruct (first_item _ Y t Hf Hter _ _ _ H1 Hy) as (A2 & pr2 & p2 & H2 & Hn2).
      destruct (l_tr _ _ _ _ _ _ _ _ L _ _ _ _ _ H2 Hn2) as (m & Hm).
      destruct (has_entry _ _ _ _ _ _ _ _ L _ _ _ _ _ _ H2 Hn2 Hm) as [E|(a & b & E)].
      + replace (is_terminal g t) with true in E by (symmetry; now apply is_terminal_term).
        destruct (d_buffer d) as [|tok rest] eqn:Eb.
        * eapply halts_err; auto. eapply step_of; eauto. eapply sr_eof; eauto. rewrite <- E. f_equal. rewrite <- El. unfold lookahead.
          rewrite Eb. symmetry. apply (si_eof _ _ _ _ _ _ Hs).
        * assert (stepR d (pushed d m tok rest 0) Ok) as SR.
          { apply sr_shift; auto. rewrite <- E. f_equal. rewrite <- El. unfold lookahead. now rewrite Eb. }
          eapply halts_step; auto; [eapply step_of; eauto|].
          destruct (step_inv' _ _ _ _ _ _ _ _ L maps Heof d (pushed d m tok rest 0) Ok Hs Ht) as [_ H]; [eapply step_of; eauto|].
          destruct (H eq_refl). apply (IHn (length rest)); auto.
      + eapply halts_err; auto. eapply step_of; eauto. eapply sr_conflict. rewrite El. exact E.
    - destruct (d_finished d) eqn:Ef; [now apply halts_fin|].
      assert (S p = length (fst pr)) as Elen.
      { apply nth_error_None in Hy. assert (p < length (fst pr)) by (apply nth_error_Some; congruence). lia. }
      apply (justl_hasl _ _ _ _ _ Hter) in J as Hl. pose proof (c_fwd _ _ _ _ _ _ _ C _ _ _ _ _ _ _ Htr Hl Hn) as Hl'.
      rewrite Elen in Hl'.
      destruct (step_total _ _ _ _ _ _ _ _ L maps d Hcov Hs) as (d' & o & St & SR).
      apply (halts_outcome _ _ _ Ef St). intros ->.
      destruct (step_inv' _ _ _ _ _ _ _ _ L maps Heof _ _ _ Hs Ht St) as [_ H]. destruct (H eq_refl) as [Hs' Ht']. clear H.
      destruct (hasl_entry _ _ _ _ _ _ _ _ L _ _ _ _ Hl') as [E|(a & b & E)]; rewrite <- El in E.
      + inversion SR as [tok rest m Eb E'|m Eb E'|m E'|E' Eb|E' Eb|a b E'|m Em E'|A1 pr1 q1 m fs f E' Efs Ef' Eq1 Et Eg|A1 pr1 q1 a b fs f E' Efs Ef' Eq1 Eg];
          subst d'.
        * apply (IHn (length rest)); auto. rewrite Eb in Hb. simpl in Hb. lia.
        * apply (entry_goto _ _ _ _ _ _ _ _ L) in E' as [E' _]. exfalso. rewrite El in E'. contradiction.
        * now apply halts_fin.
        * rewrite E' in E. destruct (eqb_spec A start) as [HAs|HAs]; [congruence|]. injection E as -> ->.
          rewrite <- Elen in *. rewrite Eq in Eq1.
          destruct (path_hasl (S p) (d_top d) (q :: qs) (map tk_ty (d_items d)) A pr t) as (q2 & Hq2 & Hl2).
          { rewrite <- Eq. apply (si_path _ _ _ _ _ _ Hs). } { exact Hl'. }
          rewrite Eq1 in Hq2. injection Hq2 as <-.
          assert (exists qs2, skipn p (q :: qs) = q1 :: qs2) as (qs2 & Esk).
          { exists (skipn (S p) (q :: qs)). apply skipn_nth_cons. exact Eq1. }
          destruct p as [|p].
          -- simpl in Eq1. injection Eq1 as <-. eapply (IHJ eq_refl HAs Hter _ qs); eauto; simpl.
             ++ destruct (d_items d) eqn:Ei; simpl in *; try lia.
                pose proof (path_len _ _ _ _ (si_path _ _ _ _ _ _ Hs)) as Hpl. rewrite Eq, Ei in Hpl. simpl in Hpl. lia.
             ++ rewrite Eq. reflexivity.
          -- assert (Hlt : length (d_items (pushed d m (mkTok (f (rev (firstn (S (S p)) (d_items d)))) A) (d_buffer d) (S (S p)))) < h).
             { pose proof (path_len _ _ _ _ (si_path _ _ _ _ _ _ Hs)) as Hpl. rewrite map_length in Hpl.
               unfold pushed. cbn [d_items]. rewrite length_cons, skipn_length.
               assert (S (S p) < length (d_states d)) by (rewrite Eq; apply nth_error_Some; congruence). lia. }
             eapply (IHh _ Hlt q1 A pr 0 t); eauto.
             ++ apply (s_just _ _ _ _ _ _ _ S1); eauto.
             ++ unfold pushed. cbn [d_states d_top]. rewrite Eq. f_equal. exact Esk.
      + exfalso. inversion SR; subst; try congruence. unfold lookahead in E. rewrite H in E. congruence. }
  intros d Hn Hs Ht. destruct (d_finished d) eqn:Ef; [now apply halts_fin|].
  pose proof (terms_look g eof sts sfk acts maps Heof d Hs Ht) as Htl.
  destruct (step_total _ _ _ _ _ _ _ _ L maps d Hcov Hs) as (d' & o & St & SR).
  apply (halts_outcome _ _ _ Ef St). intros ->.
  destruct (step_inv' _ _ _ _ _ _ _ _ L maps Heof _ _ _ Hs Ht St) as [_ H]. destruct (H eq_refl) as [Hs' Ht']. clear H.
  inversion SR as [tok rest m Eb E'|m Eb E'|m E'|E' Eb|E' Eb|a b E'|m Em E'|A1 pr1 q1 m fs f E' Efs Ef' Eq1 Et Eg|A1 pr1 q1 a b fs f E' Efs Ef' Eq1 Eg];
    subst d'.
  - apply (IHn (length rest)); auto. rewrite Eb in Hn. simpl in Hn. lia.
  - apply (entry_goto _ _ _ _ _ _ _ _ L) in E' as [E' _]. contradiction.
  - now apply halts_fin.
  - apply (entry_reduce _ _ _ _ _ _ _ _ L) in E' as [HA Hl].
    pose proof (si_path _ _ _ _ _ _ Hs) as Sp. pose proof (si_top _ _ _ _ _ _ Hs) as Stop.
    destruct (d_states d) as [|q0 qs] eqn:Eqs; [discriminate|]. simpl in Stop. injection Stop as ->.
    destruct (path_hasl _ _ _ _ _ _ _ Sp Hl) as (q2 & Hq2 & Hl2). rewrite Eq1 in Hq2. injection Hq2 as <-.
    eapply (K _ q1 A1 pr1 0 (lookahead d)); auto.
    + apply (s_just _ _ _ _ _ _ _ S1); auto.
    + unfold pushed. cbn [d_states d_top]. rewrite Eqs. f_equal. apply skipn_nth_cons. exact Eq1.
Qed.
End Canonical.
End Run.
End Halt.
