(** How high the stack gets (C126) *)
From Coq Require Import List Bool Arith Lia.
From Verif Require Import BTree Model Base Spec SpecP GrammarP FirstFollow Closure ActTab LR Sound CanonLR Prefix Complete RunFacts Interface Wrap LR1Spec Handle HeightSpec.
Import ListNotations.

Lemma ranked_left {T} {OT : Ord T} (rules : rulemap T) start rank : left_ranked rules rank -> left_only rules start.
Proof.
  intros H. assert (forall A u B, down rules A u B -> nonterm rules B -> rank B < rank A \/ (u = [] /\ rank B <= rank A)) as K.
  { induction 1 as [A i u B v Hp|A i u B v w C Hp D IH]; intros HB; [eauto|]. assert (nonterm rules B) as HB' by (inversion D; subst; eapply prod_nonterm; eauto).
    specialize (IH HB). destruct (H _ _ _ _ _ Hp HB') as [H1|[-> H1]], IH as [H2|[-> H2]]; [left; lia..|]. right. split; auto. lia. }
  intros A u _ D. assert (nonterm rules A) as HA by (inversion D; subst; eapply prod_nonterm; eauto). destruct (K _ _ _ D HA) as [E|[E _]]; auto. lia.
Qed.

Section Gram.
Context {T : Type} {OT : Ord T}.
Variable rules : rulemap T.
Variable start : T.
Hypothesis Hl : left_only rules start.
Variable n : nat.
Hypothesis Hn : widest rules n.

(** the nonterminals on the way to [A], each with what it has left behind *)
Inductive spine : list (T * list T) -> T -> Prop :=
| sp_start : spine [] start
| sp_step l A i u B v : spine l A -> prod_at rules A i (u ++ B :: v) -> spine ((A, u) :: l) B.

Definition left (l : list (T * list T)) : list T := concat (map snd (rev l)).
Definition bulky (l : list (T * list T)) : list (T * list T) := filter (fun c => match snd c with [] => false | _ => true end) l.

Lemma down_app A u B i v w C : down rules A u B -> prod_at rules B i (v ++ C :: w) -> down rules A (u ++ v) C.
Proof.
  intros H Hp. induction H as [A j u B x Hp1|A j u B x w0 D Hp1 H IH].
  - eapply down_more; eauto. eapply down_one; eauto.
  - rewrite <- app_assoc. eapply down_more; eauto.
Qed.

Lemma spine_down l A : spine l A -> forall B u, In (B, u) l -> exists w, down rules B (u ++ w) A.
Proof.
  induction 1 as [|l A i u B v H IH Hp]; [easy|]. intros D x [[= <- <-]|Hi].
  - exists []. rewrite app_nil_r. eapply down_one; eauto.
  - destruct (IH _ _ Hi) as (w & K). exists (w ++ u). rewrite app_assoc. eapply down_app; eauto.
Qed.

Lemma spine_keys l A : spine l A -> forall B u, In (B, u) l -> In B (bm_keys rules) /\ S (length u) <= n.
Proof.
  induction 1 as [|l A i u B v H IH Hp]; [easy|]. intros D x [[= <- <-]|Hi]; eauto. split.
  - pose proof (prod_nonterm _ _ _ _ Hp) as (r & Hr). apply bm_get_in in Hr. apply in_map_iff. exists (A, r). auto.
  - apply Hn in Hp. rewrite app_length in Hp. simpl in Hp. lia.
Qed.

Lemma spine_root l A : spine l A -> A = start \/ exists a, down rules start a A.
Proof.
  induction 1 as [|l A i u B v H [->|(a & IH)] Hp]; [now left| |]; right.
  - exists u. eapply down_one; eauto.
  - exists (a ++ u). eapply down_app; eauto.
Qed.

Lemma spine_fresh l A : spine l A -> ~ In A (map fst (bulky l)).
Proof.
  intros H Hi. apply in_map_iff in Hi as ([B u] & E & Hi). simpl in E. subst B. apply filter_In in Hi as [Hi Hb]. destruct (spine_down _ _ H _ _ Hi) as (w & K).
  apply Hl in K; [|eapply spine_root; eauto]. destruct u; discriminate.
Qed.

Lemma spine_nodup l A : spine l A -> NoDup (map fst (bulky l)).
Proof.
  induction 1 as [|l A i u B v H IH Hp]; [constructor|]. unfold bulky. cbn [filter snd]. destruct u; auto. cbn [map fst]. constructor; auto. now apply spine_fresh.
Qed.

Lemma spine_left l A : spine l A -> length (left l) <= length (bulky l) * (n - 1).
Proof.
  induction 1 as [|l A i u B v H IH Hp]; [simpl; lia|]. unfold left in *. cbn [rev]. rewrite map_app, concat_app, app_length. cbn [map concat snd]. rewrite app_nil_r.
  apply Hn in Hp. rewrite app_length in Hp. simpl in Hp. unfold bulky in *. cbn [filter snd]. destruct u; cbn [length] in *; lia.
Qed.

Lemma spine_bound l A p i rhs : spine l A -> prod_at rules A i rhs -> p <= length rhs -> 1 <= n -> length (left l) + p <= length rules * (n - 1) + 1.
Proof.
  intros H Hp Hle H1. pose proof (spine_left _ _ H) as H2. pose proof (spine_nodup _ _ H) as H3. pose proof (spine_fresh _ _ H) as H4.
  assert (length (A :: map fst (bulky l)) <= length rules) as H5.
  { unfold bm_keys in *. rewrite <- (map_length fst rules). apply NoDup_incl_length; [now constructor|]. intros x [<-|Hx].
    - pose proof (prod_nonterm _ _ _ _ Hp) as (r & Hr). apply bm_get_in in Hr. apply in_map_iff. exists (A, r). auto.
    - apply in_map_iff in Hx as ([B u] & <- & Hi). apply filter_In in Hi as [Hi _]. apply (spine_keys _ _ H _ _ Hi). }
  cbn [length] in H5. rewrite map_length in H5. apply Hn in Hp. nia.
Qed.
End Gram.

Section Lr0.
Context {T : Type} {OT : Ord T}.
Variables (g : grammar T) (start eof : T) (p0 : production T).
Variable sts : list (state T).
Variable sfk : state T -> option nat.
Variable lookf : position T -> res (bset T).
Variable acts : acttable T.
Notation rules := (g_rules g).
Notation lr0 := (lr0 g start eof p0 sts sfk lookf acts).
Notation path := (path sts sfk).
Notation has := (has sts).
Notation hasl := (hasl sts lookf).
Notation tr := (tr sts sfk).
Notation just := (just g start p0 sts).
Hypothesis L : lr0.

Lemma just_spine q qs Xs A pr p : path (q :: qs) Xs -> just q A pr p ->
  exists l, spine rules start l A /\ rev Xs = left l ++ firstn p (fst pr).
Proof.
  remember (length Xs) as n eqn:En. assert (Hn : length Xs <= n) by lia. clear En. revert q qs Xs A pr p Hn.
  induction n as [n IHn] using (well_founded_induction lt_wf). intros q qs Xs A pr p Hlen Hp J.
  induction J as [|q A pr p Hh|q A pr p B i rhs J IHJ Hn Hpr].
  - exists []. split; [constructor|]. assert (Xs = []) as ->.
    { apply (path_zero _ _ _ _ _ _ _ _ L _ _ 0) in Hp; auto. now destruct Xs. }
    reflexivity.
  - inversion Hp as [|q1 qs1 X Xs1 n1 Hp1 Ht]; subst.
    + apply (l_zero _ _ _ _ _ _ _ _ L) in Hh. discriminate.
    + destruct (l_back _ _ _ _ _ _ _ _ L _ _ _ _ _ _ Ht Hh) as [Hh1 Hx].
      simpl in Hlen. destruct (IHn (length Xs1)) with (q := q1) (qs := qs1) (Xs := Xs1) (A := A) (pr := pr) (p := p)
        as (l & H1 & H2); auto; try lia.
      { now apply (l_just _ _ _ _ _ _ _ _ L). }
      exists l. split; auto. simpl. rewrite H2, <- app_assoc. f_equal. symmetry. now apply firstn_S_nth.
  - destruct (IHJ Hp) as (l & H1 & H2). exists ((A, firstn p (fst pr)) :: l). split.
    + assert (prod_at rules A (snd pr) (fst pr)) as HA by (apply (just_has _ _ _ _ _ _ _ _ L) in J; eapply (l_valid _ _ _ _ _ _ _ _ L); eauto).
      eapply sp_step; eauto. rewrite <- (skipn_nth_cons _ _ _ Hn), firstn_skipn. exact HA.
    + unfold left in *. cbn [rev]. rewrite map_app, concat_app, H2. cbn [map concat snd firstn]. now rewrite !app_nil_r.
Qed.

Lemma path_item q qs Xs : path (q :: qs) Xs -> exists A pr p, has q A pr p.
Proof.
  intros P. inversion P as [|q1 qs1 Y Ys n1 P1 Ht]; subst.
  - exists start, p0, 0. apply (l_start _ _ _ _ _ _ _ _ L).
  - pose proof Ht as (row & [A pr p l] & K1 & K2 & K3 & _). rewrite ptop_nth in K3. exists A, pr, (S p).
    eapply (l_fwd _ _ _ _ _ _ _ _ L); eauto. exists row, l. auto.
Qed.

Lemma path_bound q qs Xs n : left_only rules start -> widest rules n -> path (q :: qs) Xs -> length Xs <= length rules * (n - 1) + 1.
Proof.
  intros Hl Hn P. destruct (path_item _ _ _ P) as (A & pr & p & Hh).
  destruct (just_spine _ _ _ _ _ _ P (l_just _ _ _ _ _ _ _ _ L _ _ _ _ Hh)) as (l & H1 & H2).
  apply (l_valid _ _ _ _ _ _ _ _ L) in Hh as [Hp Hle].
  assert (1 <= n) as H0.
  { pose proof (Hn _ _ _ Hp) as K. pose proof (l_noempty _ _ _ _ _ _ _ _ L _ _ _ Hp). destruct (fst pr); simpl in *; [congruence|lia]. }
  pose proof (spine_bound _ _ Hl _ Hn _ _ _ _ _ H1 Hp Hle H0) as H3. rewrite <- (rev_length Xs), H2, app_length, firstn_length_le; auto.
Qed.

(** ** the driver gets to every viable prefix, if it meets no conflict *)
Section Run.
Hypothesis C : lr1c g start eof p0 sts sfk lookf.
Hypothesis Heof : term rules eof.
Hypothesis Hone : forall i rhs, prod_at rules start i rhs -> i = 0 /\ rhs = fst p0.
Hypothesis Hprod : productive rules.
Context {M : Type}.
Variable m0 : M.
Variable maps : reductmap T M.
Hypothesis Hcov : covers rules maps.
Notation sinv := (sinv eof sts sfk acts maps).
Notation halted := (halted g start).
Notation la_of := (la_of eof).

Lemma follow_prefix Xs w its : evals_seq rules maps Xs w its -> forall Ys w2 its2, evals_seq rules maps Ys w2 its2 -> forall d rest A pr p,
     sinv d -> d_finished d = false -> d_buffer d = w ++ w2 ++ rest -> skipn p (fst pr) = Xs ++ Ys -> p <= length (fst pr) ->
     term rules (la_of rest) -> hasl (d_top d) A pr p (la_of rest) ->
     (exists d', steps d d' /\ sinv d' /\ d_finished d' = false /\ d_buffer d' = w2 ++ rest /\ d_items d' = rev its ++ d_items d /\
        hasl (d_top d') A pr (p + length Xs) (la_of rest)) \/ halted d.
Proof.
  induction Xs as [|X Xs IH] in w, its |- *; intros Hev Ys w3 its3 Hys d rest A pr p S Ef Eb Es Hp Hter Hl; inversion Hev as [|X1 Xs1 w1 w2 it its1 Hev1 Hevs]; subst.
  - left. exists d. rewrite Nat.add_0_r. split; [constructor|]. auto.
  - cbn [app] in Es. assert (nth_error (fst pr) p = Some X) as Hn.
    { rewrite <- (Nat.add_0_r p), <- nth_error_skipn, Es. reflexivity. }
    assert (skipn (Datatypes.S p) (fst pr) = Xs ++ Ys) as Es'.
    { rewrite (skipn_nth_cons _ _ _ Hn) in Es. congruence. }
    assert (Hlt : p < length (fst pr)) by (apply nth_error_Some; congruence).
    assert (evals_seq rules maps (Xs ++ Ys) (w2 ++ w3) (its1 ++ its3)) as Hall.
    { clear -Hevs Hys. revert w2 its1 Hevs. induction Xs as [|X Xs IH]; intros w2 its1 H; inversion H; subst; auto. rewrite <- app_assoc. cbn [app]. constructor; auto. }
    assert (Hctx : term rules (la_of ((w2 ++ w3) ++ rest)) /\ ctx g sts lookf (d_top d) A pr p (la_of ((w2 ++ w3) ++ rest))).
    { unfold ctx. destruct (nth_error (fst pr) (Datatypes.S p)) as [Y|] eqn:Ey.
      - rewrite (skipn_nth_cons _ _ _ Ey) in Es'. destruct (Xs ++ Ys) as [|Y' Xs']; [discriminate|]. injection Es' as <- Es'.
        inversion Hall as [|? ? v1 v2 it1 its2 Hv1 Hv2]; subst.
        apply (proj1 (evals_derives rules maps)) in Hv1 as [Hd Hf].
        pose proof (derives_nonempty rules _ _ (l_noempty _ _ _ _ _ _ _ _ L) Hd) as Hne. rewrite map_length in Hne.
        destruct v1 as [|tk v1]; [simpl in Hne; lia|]. simpl. simpl in Hf, Hd. inversion Hf; subst. split; auto. split; eauto.
      - apply nth_error_None in Ey. assert (Xs ++ Ys = []) as E0 by (rewrite <- Es'; now apply skipn_all2). rewrite E0 in Hall.
        inversion Hall as [E1 E2|]; subst. simpl. auto. }
    destruct Hctx as [Hct1 Hct2].
    destruct (proj1 (follow_tree _ _ _ _ _ _ _ _ L C maps) _ _ _ Hev1 d ((w2 ++ w3) ++ rest) A pr p S Ef) as [(n & Htr & H1)|Hst]; auto.
    { rewrite Eb. now rewrite <- !app_assoc. } { eapply hasl_has; eauto. }
    pose proof (c_fwd _ _ _ _ _ _ _ C _ _ _ _ _ _ _ Htr Hl Hn) as Hl'.
    set (d1 := pushed d n it ((w2 ++ w3) ++ rest) 0) in *.
    assert (sinv d1) as S1.
    { apply pushed_sinv; auto. rewrite (proj1 (evals_ty rules maps) _ _ _ Hev1). auto. }
    destruct (IH _ _ Hevs _ _ _ Hys d1 rest A pr (Datatypes.S p) S1 Ef) as [(d' & H2 & H3 & H4 & H5 & H6 & H7)|Hst]; auto.
    { unfold d1. cbn [pushed d_buffer]. now rewrite <- app_assoc. }
    + left. exists d'. split; [eapply steps_trans; eauto|]. split; auto. split; auto. split; auto.
      split; [rewrite H6; simpl; now rewrite <- app_assoc|]. cbn [length]. now replace (p + Datatypes.S (length Xs)) with (Datatypes.S p + length Xs) by lia.
    + right. eapply steps_halted; eauto.
Qed.

Definition toks (w : list T) : list (token T M) := map (mkTok m0) w.
Lemma toks_ty w : map tk_ty (toks w) = w. Proof. unfold toks. rewrite map_map. apply map_id. Qed.
Lemma toks_app u v : toks (u ++ v) = toks u ++ toks v. Proof. apply map_app. Qed.
Lemma toks_evals Xs w : derives rules Xs w -> Forall (term rules) w -> exists its, evals_seq rules maps Xs (toks w) its.
Proof. intros D F. apply derives_evals; rewrite ?toks_ty; auto. Qed.
Lemma la_next x : la_of (toks x) = next eof x. Proof. now destruct x. Qed.

Lemma reach_rsf a A x : rsf rules start a A x -> forall w it, evals rules maps A (toks w) it ->
  exists pre, derives rules [start] (pre ++ w ++ x) /\ Forall (term rules) (pre ++ w ++ x) /\
    ((exists d, steps (dfa_new (toks (pre ++ w ++ x)) acts maps eof) d /\ sinv d /\ d_finished d = false /\ d_buffer d = toks (w ++ x) /\ rev (map tk_ty (d_items d)) = a /\
       forall i rhs, prod_at rules A i rhs -> hasl (d_top d) A (rhs, i) 0 (next eof x)) \/ halted (dfa_new (toks (pre ++ w ++ x)) acts maps eof)).
Proof.
  induction 1 as [|a B x j b1 A b2 v H IH Hp Hd Hv]; intros w it He.
  - apply (proj1 (evals_derives rules maps)) in He as [D F]. rewrite toks_ty in D, F. exists []. cbn [app]. rewrite app_nil_r. split; auto. split; auto. left. eexists. split; [constructor|].
    split; [apply dfa_new_sinv|]. split; [reflexivity|]. split; [reflexivity|]. split; [reflexivity|]. intros i rhs Hr. destruct (Hone _ _ Hr) as [-> ->].
    replace (fst p0, 0) with p0; [apply (c_start _ _ _ _ _ _ _ C)|]. destruct p0 as [r0 i0]. cbn [fst] in *. f_equal.
    pose proof (l_valid _ _ _ _ _ _ _ _ L _ _ _ _ (l_start _ _ _ _ _ _ _ _ L)) as [K _]. cbn in K. now apply Hone in K as [-> _].
  - destruct (productive_str g b1 Hprod) as (v1 & D1 & F1). destruct (toks_evals _ _ D1 F1) as (its1 & E1). destruct (toks_evals _ _ Hd Hv) as (its2 & E2).
    assert (evals_seq rules maps (A :: b2) (toks w ++ toks v) (it :: its2)) as E3 by now constructor.
    assert (evals_seq rules maps (b1 ++ A :: b2) (toks v1 ++ toks w ++ toks v) (its1 ++ it :: its2)) as E4.
    { clear -E1 E3. revert E1. generalize (toks v1) as u. revert its1. induction b1 as [|X Xs IH]; intros its1 u E1; inversion E1; subst; auto. rewrite <- app_assoc. cbn [app]. constructor; auto. }
    destruct (Hcov _ _ _ Hp) as (fs & f & Ef & Ef2).
    pose proof (evals_rule rules maps _ _ _ _ _ _ _ Hp E4 Ef Ef2) as E5. rewrite <- !toks_app in E5.
    destruct (IH _ _ E5) as (pre & K1 & K2 & K3). exists (pre ++ v1). assert ((pre ++ v1) ++ w ++ v ++ x = pre ++ (v1 ++ w ++ v) ++ x) as Eq by now rewrite <- !app_assoc.
    rewrite Eq. split; auto. split; auto. destruct K3 as [(d & Q1 & Q2 & Q3 & Q4 & Q5 & Q6)|Hh]; [|now right].
    assert (term rules (next eof x)) as Hter by (apply next_term; auto; eapply rsf_term; eauto). pose proof (Q6 _ _ Hp) as Hh.
    destruct (follow_prefix _ _ _ E1 _ _ _ E3 d (toks x) B (b1 ++ A :: b2, j) 0 Q2 Q3) as [(d' & R1 & R2 & R3 & R4 & R5 & R6)|Hst]; rewrite ?la_next; auto; try lia.
    + rewrite Q4, !toks_app. now rewrite <- !app_assoc.
    + left. exists d'. split; [eapply steps_trans; eauto|]. split; auto. split; auto. split; [rewrite R4, !toks_app; now rewrite <- !app_assoc|].
      split. { rewrite R5, map_app, map_rev, rev_app_distr, rev_involutive, Q5. f_equal. now apply (proj2 (evals_ty rules maps)) in E1. }
      rewrite la_next in R6. cbn [Nat.add] in R6.
      intros i rhs Hr. assert (nth_error (b1 ++ A :: b2) (length b1) = Some A) as N1 by (rewrite nth_error_app2, Nat.sub_diag; auto).
      assert (nth_error (b1 ++ A :: b2) (S (length b1)) = nth_error b2 0) as N2.
      { rewrite nth_error_app2 by lia. now replace (S (length b1) - length b1) with 1 by lia. }
      destruct b2 as [|Y b3].
      * apply derives_nil in Hd. subst v. simpl. eapply (c_last _ _ _ _ _ _ _ C); eauto.
      * assert (exists y v', v = y :: v' /\ first_spec rules Y y) as (y & v' & -> & Hf).
        { destruct v as [|y v'].
          - apply (derives_nonempty _ _ _ (l_noempty _ _ _ _ _ _ _ _ L)) in Hd. simpl in Hd. lia.
          - exists y, v'. split; auto. inversion Hv; subst. split; auto. change (Y :: b3) with ([Y] ++ b3) in Hd.
            apply derives_split in Hd as (w1 & w2 & E & D2 & D3). destruct w1 as [|y1 w1].
            + apply (derives_nonempty _ _ _ (l_noempty _ _ _ _ _ _ _ _ L)) in D2. simpl in D2. lia.
            + injection E as <- _. eauto. }
        simpl. eapply (c_first _ _ _ _ _ _ _ C); eauto using hasl_has.
    + right. eapply steps_halted; eauto.
Qed.
End Run.
End Lr0.

Section Top.
Context {T : Type} {OT : Ord T}.
Variables (dbg : bool) (start eof : T) (rules : rulemap T) (g : grammar T).
Hypothesis W : wf_rules rules.
Hypothesis Hg : grammar_new dbg start rules eof = Val g.
Context {M : Type}.
Variable maps : reductmap T M.
Variables (k : method) (t : tabler T).
Hypothesis Hm : makes k dbg g t.
Hypothesis Heof : term rules eof.

Lemma height_bound n input d : left_only rules start -> widest rules n -> Forall (term rules) (map tk_ty input) -> reaches t input maps d ->
  length (d_items d) <= length rules * (n - 1) + 1.
Proof.
  intros Hl Hn Ht R. apply (reaches_steps _ _ _ _ _ W Hg maps _ _ Hm) in R.
  destruct (Wp0 _ _ _ _ _ W Hg) as (p0 & Hp0 & Hpr & Hz). destruct (makes_made _ _ _ _ _ W Hg _ _ _ Hm Hp0) as (sfk & lookf & X).
  pose proof (m_lr0 _ _ _ _ _ _ _ _ _ _ X) as L. pose proof (Wr _ _ _ _ _ Hg) as Er. rewrite <- Er in Hl, Hn, Ht, Heof |- *.
  destruct (steps_vinv _ _ _ _ _ _ _ _ L Heof maps _ _ R Ht) as (Hs & _). pose proof (si_path _ _ _ _ _ _ Hs) as P.
  rewrite <- (map_length tk_ty). destruct (d_states d) as [|q qs]; [inversion P|]. exact (path_bound _ _ _ _ _ _ _ _ L _ _ _ _ Hl Hn P).
Qed.

Lemma spine_way l A : spine rules start l A -> (A = start /\ left l = []) \/ down rules start (left l) A.
Proof.
  induction 1 as [|l A i u B v H IH Hp]; [now left|]. right. unfold left in *. cbn [rev]. rewrite map_app, concat_app. cbn [map concat snd]. rewrite app_nil_r.
  destruct IH as [[-> ->]|IH]; [eapply down_one; eauto|eapply down_app; eauto].
Qed.

(** a stack is what a way down leaves behind, followed by the beginning of a right-hand side *)
Lemma height_shape input d : Forall (term rules) (map tk_ty input) -> reaches t input maps d ->
  exists A i rhs a p, prod_at rules A i rhs /\ (A = start /\ a = [] \/ down rules start a A) /\ rev (map tk_ty (d_items d)) = a ++ firstn p rhs.
Proof.
  intros Ht R. apply (reaches_steps _ _ _ _ _ W Hg maps _ _ Hm) in R.
  destruct (Wp0 _ _ _ _ _ W Hg) as (p0 & Hp0 & Hpr & Hz). destruct (makes_made _ _ _ _ _ W Hg _ _ _ Hm Hp0) as (sfk & lookf & X).
  pose proof (m_lr0 _ _ _ _ _ _ _ _ _ _ X) as L. pose proof (Wr _ _ _ _ _ Hg) as Er. rewrite <- Er in Ht, Heof.
  destruct (steps_vinv _ _ _ _ _ _ _ _ L Heof maps _ _ R Ht) as (Hs & _). pose proof (si_path _ _ _ _ _ _ Hs) as P.
  destruct (d_states d) as [|q qs]; [inversion P|]. destruct (path_item _ _ _ _ _ _ _ _ L _ _ _ P) as (A & pr & p & Hh).
  destruct (just_spine _ _ _ _ _ _ _ _ L _ _ _ _ _ _ P (l_just _ _ _ _ _ _ _ _ L _ _ _ _ Hh)) as (l & H1 & H2).
  apply (l_valid _ _ _ _ _ _ _ _ L) in Hh as [Hp Hle]. rewrite Er in Hp, H1. exists A, (snd pr), (fst pr), (left l), p. split; auto. split; auto. now apply spine_way.
Qed.

Lemma height_tokens input d : Forall (term rules) (map tk_ty input) -> reaches t input maps d -> length (d_items d) + length (d_buffer d) <= length input.
Proof.
  intros Ht R. destruct (reaches_stack _ _ _ _ _ W Hg maps _ _ Hm Heof _ _ R Ht) as (_ & _ & used & -> & E). rewrite app_length.
  destruct (Wp0 _ _ _ _ _ W Hg) as (p0 & Hp0 & Hpr & Hz). destruct (makes_made _ _ _ _ _ W Hg _ _ _ Hm Hp0) as (sfk & lookf & X).
  pose proof (m_lr0 _ _ _ _ _ _ _ _ _ _ X) as L. pose proof (Wr _ _ _ _ _ Hg) as Er.
  apply (proj2 (evals_derives rules maps)) in E as [D _]. rewrite <- Er in D. apply (derives_nonempty _ _ _ (l_noempty _ _ _ _ _ _ _ _ L)) in D.
  rewrite rev_length, !map_length in D. lia.
Qed.

Hypothesis Hk : k <> LALR \/ carries t.
Hypothesis Hf : start_fresh rules start.
Hypothesis Hone : single_start rules start.
Hypothesis Hprod : productive rules.
Hypothesis Hcov : covers rules maps.
Hypothesis Hc : conflicts (t_actions t) = [].
Variable m0 : M.

Lemma rsf_down A u B : down rules A u B -> forall a x, rsf rules start a A x -> exists y, rsf rules start (a ++ u) B y.
Proof.
  rewrite <- (Wr _ _ _ _ _ Hg) in Hprod.
  induction 1 as [A i u B v Hp|A i u B v w C Hp H IH]; intros a x R; destruct (productive_str g v Hprod) as (z & D & F); rewrite (Wr _ _ _ _ _ Hg) in D, F;
    pose proof (rsf_sub _ _ _ _ _ _ _ _ _ _ R Hp D F) as R'; eauto.
  destruct (IH _ _ R') as (y & K). rewrite <- app_assoc in K. eauto.
Qed.

Lemma height_rsf a A x : rsf rules start a A x -> exists input d, sentence rules start (map tk_ty input) /\ reaches t input maps d /\ rev (map tk_ty (d_items d)) = a.
Proof.
  intros R. destruct (Wp0 _ _ _ _ _ W Hg) as (p0 & Hp0 & Hpr & Hz). destruct (makes_made _ _ _ _ _ W Hg _ _ _ Hm Hp0) as (sfk & lookf & X).
  pose proof (m_lr0 _ _ _ _ _ _ _ _ _ _ X) as L. pose proof (Wr _ _ _ _ _ Hg) as Er. pose proof (m_lr1c _ _ _ _ _ _ _ _ _ _ X Hk Heof) as C.
  pose proof (one_start _ _ p0 Hpr Hone) as H1. rewrite <- Er in *.
  destruct (productive_str g [A] Hprod) as (w & D & F). destruct (toks_evals g m0 maps Hcov _ _ D F) as (its & E).
  inversion E as [|X1 Xs1 w1 w2 it its1 E1 E2 Q1 Q2]; subst. inversion E2; subst. rewrite app_nil_r in Q2. subst w1.
  destruct (reach_rsf _ _ _ _ _ _ _ _ L C Heof H1 Hprod m0 maps Hcov _ _ _ R _ _ E1) as (pre & K1 & K2 & [(d & K3 & _ & _ & _ & K4 & _)|Hh]).
  - exists (toks m0 (pre ++ w ++ x)), d. rewrite toks_ty. split; [split; auto|]. split; auto. eapply steps_reaches; eauto.
    constructor. apply (makes_dfa _ _ _ _ _ W Hg maps _ _ Hm).
  - exfalso. apply (fresh_halted _ _ _ Hf) in Hh. revert Hh. eapply (clean_not_stuck _ _ _ _ _ _ _ _ L Heof maps); auto.
    + apply dfa_new_sinv.
    + unfold terms. cbn [dfa_new d_buffer]. now rewrite toks_ty.
Qed.

(** every way down is a stack of some run on a sentence *)
Lemma height_viable a A : down rules start a A -> exists input d, sentence rules start (map tk_ty input) /\ reaches t input maps d /\ rev (map tk_ty (d_items d)) = a.
Proof. intros H. destruct (rsf_down _ _ _ H _ _ (rsf_start _ _)) as (y & R). eapply height_rsf; eauto. Qed.

Lemma height_unbounded a A u : down rules start a A -> down rules A u A -> u <> [] -> forall n, exists input d,
  sentence rules start (map tk_ty input) /\ reaches t input maps d /\ n <= length (d_items d).
Proof.
  intros H1 H2 Hu n. destruct (rsf_down _ _ _ H1 _ _ (rsf_start _ _)) as (y & R). cbn [app] in R.
  assert (exists b z, rsf rules start b A z /\ n <= length b) as (b & z & R' & Hb).
  { clear H1. induction n as [|n (b & z & R' & Hb)]; [exists a, y; split; auto; lia|]. destruct (rsf_down _ _ _ H2 _ _ R') as (z' & R2).
    exists (b ++ u), z'. split; auto. rewrite app_length. destruct u; [congruence|]. simpl. lia. }
  destruct (height_rsf _ _ _ R') as (input & d & K1 & K2 & K3). exists input, d. split; auto. split; auto.
  rewrite <- (map_length tk_ty), <- (rev_length (map _ _)), K3. auto.
Qed.
End Top.
