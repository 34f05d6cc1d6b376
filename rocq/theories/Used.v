(** What is in the states at all (C134), and exact versions of C82, C83, C103. *)
From Coq Require Import List Bool Arith Lia Permutation String.
From Verif Require Import BTree Model Show Strings Base Spec SpecP Interface GrammarP FirstFollow Closure ActTab LR Sound Canon CanonLR Wrap Reduce Iter Final StatesSpec StatesP Trace ShowP TextSpec Text TextP TextF Cores ValidSpec Valid Total UsedSpec.
Import ListNotations.
Local Open Scope list_scope.
Local Open Scope nat_scope.
Local Notation length := List.length.

Section Used.
Context {T : Type} {OT : Ord T}.
Variables (dbg : bool) (start eof : T) (rules : rulemap T) (g : grammar T).
Hypothesis W : wf_rules rules.
Hypothesis Hg : grammar_new dbg start rules eof = Val g.

Lemma met_prod A i rhs : met rules start A i rhs -> prod_at rules A i rhs.
Proof. destruct 1; auto. Qed.

Section One.
Variables (k : method) (t : tabler T).
Hypothesis Hm : makes k dbg g t.

Lemma has_met q A pr p : has (t_states t) q A pr p -> met rules start A (snd pr) (fst pr).
Proof.
  destruct (Wp0 _ _ _ _ _ W Hg) as (p0 & Hp0 & Hp1 & Hp2). destruct (makes_made _ _ _ _ _ W Hg _ _ _ Hm Hp0) as (sfk & lookf & X).
  pose proof (m_lr0 _ _ _ _ _ _ _ _ _ _ X) as L.
  assert (forall q qs xs, path (t_states t) sfk (q :: qs) xs -> forall A pr p, has (t_states t) q A pr p -> met rules start A (snd pr) (fst pr)) as Hall.
  { clear q A pr p. intros q qs xs P. remember (q :: qs) as l eqn:El. revert q qs El.
    induction P as [|q0 qs0 Xs X0 n P IH Ht]; intros q qs El A pr p H; injection El as Eq _; try subst q; apply (l_just _ _ _ _ _ _ _ _ L) in H.
    - remember 0 as z eqn:Ez. induction H as [|q A pr p H|q A pr p B i rhs H IHj Hn Hp]; subst.
      + rewrite Hp2. constructor. exact Hp1.
      + now apply (l_zero _ _ _ _ _ _ _ _ L) in H.
      + cbn [fst snd]. apply nth_error_split in Hn as (u & v & E & _). rewrite (Wr _ _ _ _ _ Hg) in Hp. specialize (IHj eq_refl). rewrite E in IHj. eapply met_next; eauto.
    - remember n as z eqn:Ez. induction H as [|q A pr p H|q A pr p B i rhs H IHj Hn Hp]; subst.
      + rewrite Hp2. constructor. exact Hp1.
      + destruct (l_back _ _ _ _ _ _ _ _ L _ _ _ _ _ _ Ht H) as [H1 _]. eapply IH; eauto.
      + cbn [fst snd]. apply nth_error_split in Hn as (u & v & E & _). rewrite (Wr _ _ _ _ _ Hg) in Hp. specialize (IHj eq_refl Ht). rewrite E in IHj. eapply met_next; eauto. }
  intros H. destruct (makes_states _ _ _ _ _ W Hg _ _ Hm) as (_ & HR & _).
  assert (q < length (t_states t)) as Hq. { destruct H as (row & l & E & _). apply nth_error_Some. congruence. }
  destruct (HR q Hq) as (qs & xs & P). eapply Hall; eauto. eapply moves_path; eauto.
Qed.

Lemma met_has A i rhs : met rules start A i rhs -> forall p, p <= length rhs -> exists q, has (t_states t) q A (rhs, i) p.
Proof.
  destruct (Wp0 _ _ _ _ _ W Hg) as (p0 & Hp0 & Hp1 & Hp2). destruct (makes_made _ _ _ _ _ W Hg _ _ _ Hm Hp0) as (sfk & lookf & X).
  pose proof (m_lr0 _ _ _ _ _ _ _ _ _ _ X) as L.
  assert (forall A pr q, has (t_states t) q A pr 0 -> forall p, p <= length (fst pr) -> exists q, has (t_states t) q A pr p) as Adv.
  { intros A0 pr q H p. induction p as [|p IH]; intros Hle; [eauto|]. destruct IH as (q1 & H1); [lia|].
    destruct (nth_error (fst pr) p) as [Y|] eqn:E; [|apply nth_error_None in E; lia].
    destruct (l_tr _ _ _ _ _ _ _ _ L _ _ _ _ _ H1 E) as (n & Hn). exists n. eapply (l_fwd _ _ _ _ _ _ _ _ L); eauto. }
  induction 1 as [rhs Hr|A i u B v j rhs HM IH Hr].
  - intros p Hle. assert (p0 = (rhs, 0)) as E0. { destruct p0 as [r0 n0]. cbn in *. subst n0. f_equal. destruct Hp1 as (r1 & k1 & E1 & E2), Hr as (r2 & k2 & E3 & E4). congruence. }
    subst p0. eapply (Adv start (rhs, 0)); eauto. apply (l_start _ _ _ _ _ _ _ _ L).
  - intros p Hle. destruct (IH (length u)) as (q & Hq); [rewrite app_length; lia|]. eapply (Adv B (rhs, j)); eauto.
    eapply (l_clo _ _ _ _ _ _ _ _ L); eauto.
    + cbn [fst]. rewrite nth_error_app2 by lia. now rewrite Nat.sub_diag.
    + now rewrite (Wr _ _ _ _ _ Hg).
Qed.

Lemma items_met A i u v : (exists q, item_in t q A i u v) <-> met rules start A i (u ++ v).
Proof.
  split.
  - intros (q & H). apply item_has in H. now apply has_met in H.
  - intros H. destruct (met_has _ _ _ H (length u)) as (q & Hq); [rewrite app_length; lia|]. exists q. now apply item_has.
Qed.

Lemma moves_met X : (exists q n, moves t q X n) <-> exists A i u v, met rules start A i (u ++ X :: v).
Proof.
  destruct (Wp0 _ _ _ _ _ W Hg) as (p0 & Hp0 & Hp1 & Hp2). destruct (makes_made _ _ _ _ _ W Hg _ _ _ Hm Hp0) as (sfk & lookf & XX).
  pose proof (m_lr0 _ _ _ _ _ _ _ _ _ _ XX) as L. split.
  - intros (q & n & H). eapply moves_tr in H; eauto. destruct H as (row & pos & Hr & Hpos & Ht & _). destruct pos as [A pr p l].
    assert (has (t_states t) q A pr p) as H by (exists row, l; auto). apply has_met in H. unfold ptop in Ht. cbn in Ht.
    apply nth_error_split in Ht as (u & v & E & _). exists A, (snd pr), u, v. now rewrite <- E.
  - intros (A & i & u & v & H). destruct (met_has _ _ _ H (length u)) as (q & Hq); [rewrite app_length; lia|].
    destruct (l_tr _ _ _ _ _ _ _ _ L q A (u ++ X :: v, i) (length u) X) as (n & Hn); auto.
    { cbn [fst]. rewrite nth_error_app2 by lia. now rewrite Nat.sub_diag. }
    exists q, n. eapply tr_moves; eauto.
Qed.
End One.

(** ** C103: twins *)
Lemma met_same pos pos' : no_met_twins rules start -> met rules start (p_rule pos) (snd (p_seq pos)) (fst (p_seq pos)) ->
  met rules start (p_rule pos') (snd (p_seq pos')) (fst (p_seq pos')) -> key pos = key pos' -> pos = pos'.
Proof.
  intros tw. destruct pos as [A [rhs n] i l], pos' as [A' [rhs' n'] i' l']. unfold key. cbn. intros H H' E. injection E as -> -> -> ->.
  now rewrite (tw _ _ _ _ H H').
Qed.
Lemma pos_met k t q row pos : makes k dbg g t -> nth_error (t_states t) q = Some row -> In pos row -> met rules start (p_rule pos) (snd (p_seq pos)) (fst (p_seq pos)).
Proof. intros Hm Hq Hp. destruct pos as [A pr p l]. apply (has_met k t Hm q A pr p). exists row, l. auto. Qed.

Variable show : T -> string.
Hypothesis leg : legible show.

Lemma text_key pos pos' : pos_text show pos = pos_text show pos' -> key pos = key pos'.
Proof.
  intros E. apply (f_equal (fun w => String.append w "")) in E. apply (pos_read show leg) in E as (E1 & E2 & E3 & E4 & _). unfold key. congruence.
Qed.
Lemma key_pos_text pos pos' : key pos = key pos' -> pos_text show pos = pos_text show pos'.
Proof. intros E. rewrite <- !(key_is show). now rewrite E. Qed.

Lemma met_texts k k' t t' q q' row row' pos pos' : no_met_twins rules start -> makes k dbg g t -> makes k' dbg g t' ->
  nth_error (t_states t) q = Some row -> nth_error (t_states t') q' = Some row' -> In pos row -> In pos' row' ->
  pos_text show pos = pos_text show pos' -> pos = pos'.
Proof. intros tw H H' Hq Hq' Hp Hp' E. apply text_key in E. apply met_same; eauto using pos_met. Qed.

Lemma met_keys s : no_met_twins rules start -> forall s', (forall pos, In pos s \/ In pos s' -> met rules start (p_rule pos) (snd (p_seq pos)) (fst (p_seq pos))) ->
  map key s = map key s' -> s = s'.
Proof.
  intros tw. induction s as [|p s IH]; intros [|p' s'] H E; try discriminate; auto. cbn [map] in E. assert (key p = key p' /\ map key s = map key s') as [E1 E2] by (split; congruence).
  f_equal; [|apply IH; auto]. 2:{ intros pos [Hp|Hp]; apply H; simpl; auto. }
  apply met_same; auto; apply H; simpl; auto.
Qed.
Lemma met_states k k' t t' q q' row row' : no_met_twins rules start -> makes k dbg g t -> makes k' dbg g t' ->
  nth_error (t_states t) q = Some row -> nth_error (t_states t') q' = Some row' -> state_text show row = state_text show row' -> row = row'.
Proof. intros tw H H' Hq Hq' E. apply (state_keys show leg) in E. apply met_keys in E; auto. intros pos [Hp|Hp]; eauto using pos_met. Qed.

(** Slr's and Clr's states are closed, both twins with the same lookaheads *)
Lemma rows_closed k t : k <> LALR -> makes k dbg g t -> exists lk, forall q row p B r pr, nth_error (t_states t) q = Some row -> In p row ->
  ptop p = Some B -> bm_get B rules = Some r -> In pr (r_prods r) -> In (mkPos B pr 0 (lk p)) row.
Proof.
  intros Hk Hm. destruct (makes_tabler _ _ _ _ _ W Hg _ _ Hm) as (t0 & _ & F & fuel & E).
  assert (exists lk, canon g lk (t_kernels t) (t_states t)) as (lk & [CI _]).
  { destruct k; [..|easy].
    - destruct (slr_inv _ _ _ _ _ W Hg _ F _ _ E) as (_ & _ & _ & H & _). eauto.
    - destruct (clr_inv _ _ _ _ _ W Hg _ F _ _ E) as (_ & _ & _ & H & _). eauto. }
  exists lk. intros q row p B r pr Hq Hp Ht Hr Hpr.
  assert (exists seed, forall x, In x row <-> clo g lk seed x) as (seed & HS).
  { destruct q as [|q].
    - destruct (ci_zero _ _ _ CI) as (s0 & E0 & _ & H0). cbn [snd] in E0. exists [g_basis g]. intros x. assert (row = s0) as -> by congruence. apply H0.
    - destruct (ci_sts _ _ _ CI (S q)) as (ke & Nk & Hke). { cbn [snd]. split; [lia|]. apply nth_error_Some. congruence. }
      destruct (ci_ks _ _ _ CI _ _ Hke Nk) as (_ & (c & Ec & _ & Hc) & _). cbn [snd] in Ec. exists ke. intros x. assert (row = c) as -> by congruence. apply Hc. }
  apply HS. apply clo_yield with (p := p); [now apply HS|]. exists B, r, pr. rewrite (Wr _ _ _ _ _ Hg). auto.
Qed.

Lemma prods_own A r : bm_get A rules = Some r -> forall i rhs n, nth_error (r_prods r) i = Some (rhs, n) -> n = i.
Proof.
  intros Er i rhs n. destruct (proj2 W _ _ Er) as (_ & l & ->).
  assert (forall l k i, nth_error (enum_from k l) i = Some (rhs, n) -> n = k + i) as H.
  { clear. induction l as [|x l IH]; intros k [|i] E; cbn in E; try discriminate; [injection E as _ <-; lia|]. apply IH in E. lia. }
  apply H.
Qed.

Lemma twins_texts k t A i j rhs : k <> LALR -> makes k dbg g t -> met rules start A i rhs -> met rules start A j rhs -> i <> j ->
  exists q row pos pos', nth_error (t_states t) q = Some row /\ In pos row /\ In pos' row /\ pos_text show pos = pos_text show pos' /\ pos <> pos'.
Proof.
  intros Hk Hm Hi Hj N. destruct (rows_closed k t Hk Hm) as (lk & HL).
  assert (exists B l u v, met rules start B l (u ++ A :: v)) as (B & l & u & v & HB).
  { destruct Hi as [rhs Hr|B l u A v i rhs HB Hr]; [|eauto 6]. inversion Hj; subst; eauto 6. congruence. }
  destruct (met_has _ _ Hm _ _ _ HB (length u)) as (q & row & look & Hq & Hp); [rewrite app_length; lia|].
  pose proof (met_prod _ _ _ Hi) as Pi. pose proof (met_prod _ _ _ Hj) as Pj.
  destruct Pi as (r & ki & Er & Ei), Pj as (r' & kj & Er' & Ej). assert (r' = r) as -> by congruence.
  apply (prods_own _ _ Er) in Ei as Ki. apply (prods_own _ _ Er) in Ej as Kj. subst ki kj.
  assert (forall n kk, nth_error (r_prods r) kk = Some (rhs, n) -> In (mkPos A (rhs, n) 0 (lk (mkPos B (u ++ A :: v, l) (length u) look))) row) as HI.
  { intros n kk En. eapply HL; eauto.
    - unfold ptop, peek. cbn. rewrite ?Nat.add_0_r, nth_error_app2 by lia. now rewrite Nat.sub_diag.
    - eapply nth_error_In; eauto. }
  exists q, row. eexists. eexists. split; [exact Hq|]. split; [apply (HI _ _ Ei)|]. split; [apply (HI _ _ Ej)|]. split; [now apply key_pos_text|].
  intros E. apply N. exact (f_equal (fun p => snd (p_seq p)) E).
Qed.

Lemma texts_exact k t : makes k dbg g t -> k <> LALR ->
  ((forall q row pos pos', nth_error (t_states t) q = Some row -> In pos row -> In pos' row -> pos_text show pos = pos_text show pos' -> pos = pos') <->
   no_met_twins rules start).
Proof.
  intros Hm Hk. split.
  - intros H A i j rhs Hi Hj. destruct (Nat.eq_dec i j) as [|N]; auto. exfalso.
    destruct (twins_texts k t A i j rhs Hk Hm Hi Hj N) as (q & row & pos & pos' & H1 & H2 & H3 & H4 & H5). eauto.
  - intros tw q row pos pos' Hq Hp Hp'. eapply met_texts with (k := k) (k' := k); eauto.
Qed.
End Used.

(** ** C82, C83 *)
Section Red.
Context {T : Type} {OT : Ord T}.
Variables (dbg : bool) (start eof : T) (rules : rulemap T) (g : grammar T).
Hypothesis W : wf_rules rules.
Hypothesis Hg : grammar_new dbg start rules eof = Val g.
Variables (k : method) (t : tabler T).
Hypothesis Hm : makes k dbg g t.

Lemma reduce_less t' : reduce_equals dbg t = Val t' -> (length (t_actions t') = length (t_actions t) <-> NoDup (t_actions t)).
Proof.
  intros E. destruct (makes_closed _ _ _ _ _ W Hg _ _ Hm) as (H1 & H2 & H3 & H4).
  assert (F : fit t) by (constructor; auto; lia). split.
  - destruct (reduce_once dbg t F) as (f & t1 & E1 & _ & _ & _ & _ & N1 & _). assert (t1 = t') as -> by congruence. exact N1.
  - intros N. rewrite (reduce_fixed dbg t F N) in E. now injection E as <-.
Qed.

Lemma kernels_exact t' : reduce_equals dbg t = Val t' ->
  ((forall kernel q, In (kernel, q) (t_kernels t') -> exists row, nth_error (t_actions t') q = Some row) <-> NoDup (t_actions t)).
Proof.
  intros E. rewrite <- (reduce_less _ E). destruct (reduce_states _ _ _ E) as [_ ->].
  destruct (makes_closed _ _ _ _ _ W Hg _ _ Hm) as (H1 & H2 & H3 & H4).
  destruct (makes_states _ _ _ _ _ W Hg _ _ Hm) as (_ & _ & P & _).
  destruct (reduce_equals_ok _ _ _ _ _ W Hg _ _ Hm) as (f & t1 & E1 & _ & L1 & _). assert (t1 = t') as -> by congruence.
  assert (forall q, q < length (t_actions t) <-> In q (bm_values (t_kernels t))) as HV.
  { intros q. rewrite H2. split.
    - intros Hq. apply (Permutation_in q (Permutation_sym P)). apply in_seq. lia.
    - intros Hq. apply (Permutation_in q P) in Hq. apply in_seq in Hq. lia. }
  split.
  - intros H. destruct (Nat.eq_dec (length (t_actions t')) (length (t_actions t))) as [|N]; auto. exfalso.
    assert (length (t_actions t') < length (t_actions t)) as Lt by lia. apply HV in Lt.
    unfold bm_values in Lt. apply in_map_iff in Lt as ([ke n] & E2 & Hin). cbn [snd] in E2. subst n.
    apply H in Hin as (row & Er). assert (nth_error (t_actions t') (length (t_actions t')) <> None) as N2 by congruence. apply nth_error_Some in N2. lia.
  - intros Eq ke q Hq. assert (q < length (t_actions t')) as Hl.
    { rewrite Eq. apply HV. unfold bm_values. apply in_map_iff. exists (ke, q). auto. }
    apply nth_error_Some in Hl. destruct (nth_error (t_actions t') q) as [row|]; [eauto|easy].
Qed.

Lemma ren_as_if f (a b : action T) :
  (forall n m, (mentions a n \/ mentions b n) -> (mentions a m \/ mentions b m) -> (f n = f m <-> nth_error (t_actions t) n = nth_error (t_actions t) m)) ->
  (ren f a = ren f b <-> as_if t a b).
Proof.
  intros Hf. split.
  - revert b Hf. induction a as [n|n|A pr| |a1 IH1 a2 IH2]; intros [m|m|B pr'| |b1 b2] Hf E; try discriminate E; cbn [ren mentions] in *.
    + injection E as E. constructor. apply Hf; auto.
    + injection E as E. constructor. apply Hf; auto.
    + injection E as -> ->. constructor.
    + constructor.
    + injection E as E1 E2. constructor; [apply IH1|apply IH2]; auto; intros x y Hx Hy; apply Hf; tauto.
  - intros H. induction H as [n m H|n m H|A pr| |a a' b b' H1 IH1 H2 IH2]; cbn [ren mentions] in *; auto.
    + f_equal. apply Hf; auto.
    + f_equal. apply Hf; auto.
    + rewrite IH1, IH2; auto; intros x y Hx Hy; apply Hf; tauto.
Qed.

Lemma leaves_none_exact t' : reduce_equals dbg t = Val t' ->
  (NoDup (t_actions t') <-> forall r r', In r (t_actions t) -> In r' (t_actions t) -> rows_as_if t r r' -> r = r').
Proof.
  intros E. destruct (makes_closed _ _ _ _ _ W Hg _ _ Hm) as (Hc & _ & Hs & _).
  destruct (reduce_equals_ok _ _ _ _ _ W Hg _ _ Hm) as (f & t1 & E1 & _ & _ & H2 & H3 & H4 & _). assert (t1 = t') as -> by congruence. clear E1.
  assert (forall q row, nth_error (t_actions t) q = Some row -> q < length (t_actions t)) as Hlt by (intros q row Hq; apply nth_error_Some; congruence).
  assert (forall q q' r r', nth_error (t_actions t) q = Some r -> nth_error (t_actions t) q' = Some r' -> (ren_row f r = ren_row f r' <-> rows_as_if t r r')) as HR.
  { intros q q' r r' Hq Hq'.
    assert (forall x a b, bm_get x r = Some a -> bm_get x r' = Some b -> (ren f a = ren f b <-> as_if t a b)) as HA.
    { intros x a b Ha Hb. apply ren_as_if. intros n m Hn Hm'. apply H4.
      - destruct Hn as [Hn|Hn]; [exact (Hc q r x a n Hq Ha Hn)|exact (Hc q' r' x b n Hq' Hb Hn)].
      - destruct Hm' as [Hy|Hy]; [exact (Hc q r x a m Hq Ha Hy)|exact (Hc q' r' x b m Hq' Hb Hy)]. }
    split.
    - intros Eq x. apply (f_equal (bm_get x)) in Eq. rewrite !ren_row_get in Eq.
      destruct (bm_get x r) as [a|] eqn:Ea, (bm_get x r') as [b|] eqn:Eb; cbn in Eq; try discriminate Eq; auto. apply (HA x); auto. congruence.
    - intros HH. apply msorted_ext; [apply ren_row_sorted, Hs; eapply nth_error_In; eauto..|]. intros x. rewrite !ren_row_get. specialize (HH x).
      destruct (bm_get x r) as [a|] eqn:Ea, (bm_get x r') as [b|] eqn:Eb; cbn; try easy. f_equal. now apply (HA x). }
  split.
  - intros N r r' Hr Hr' HH. apply in_nth_error in Hr as (q & Hq). apply in_nth_error in Hr' as (q' & Hq').
    apply (HR _ _ _ _ Hq Hq') in HH. pose proof (H2 _ _ Hq) as A1. pose proof (H2 _ _ Hq') as A2.
    assert (f q = f q') as Ef. { apply (proj1 (NoDup_nth_error _) N); [apply nth_error_Some|]; congruence. }
    apply H4 in Ef; eauto. congruence.
  - intros HH. apply NoDup_nth_error. intros i j Hi Eij. apply nth_error_Some in Hi.
    destruct (nth_error (t_actions t') i) as [ri|] eqn:Ei; [|easy]. symmetry in Eij. 
    destruct (H3 _ _ Ei) as (q & Hq & <-). destruct (H3 _ _ Eij) as (q' & Hq' & <-).
    apply H4; auto. pose proof Hq as B1. pose proof Hq' as B2. apply nth_error_Some in B1, B2.
    destruct (nth_error (t_actions t) q) as [r|] eqn:Er; [|easy]. destruct (nth_error (t_actions t) q') as [r'|] eqn:Er'; [|easy].
    f_equal. apply HH; [eapply nth_error_In; eauto..|]. apply (HR _ _ _ _ Er Er'). apply H2 in Er, Er'. congruence.
Qed.
End Red.
