(** By which alternatives, and in which columns, a table reduces (C134). *)
From Coq Require Import List Bool Arith Lia.
From Verif Require Import BTree Model Base Spec SpecP Interface GrammarP FirstFollow Closure Canon ActTab LR CanonLR Merged Lalr LalrLR Agree Wrap Final UsedSpec Used.
Import ListNotations.

Section Reduces.
Context {T : Type} {OT : Ord T}.
Variables (dbg : bool) (start eof : T) (rules : rulemap T) (g : grammar T).
Hypothesis W : wf_rules rules.
Hypothesis Hg : grammar_new dbg start rules eof = Val g.
Hypothesis He : term rules eof.

Section Facts.
Variable t0 : tabler T.
Hypothesis F : tabler_facts dbg start eof rules g t0.
Notation lk := (clr_lk (t_first t0)).

Lemma productive_first Y : productive rules -> exists x, first_spec rules Y x.
Proof.
  intros HP. destruct (nonterm_dec rules Y) as [HY|HY].
  - destruct (HP Y HY) as ([|x w] & Hd & Hw).
    + apply derives_nonempty in Hd; [cbn in Hd; lia|]. exact (tf_noempty _ _ _ _ _ _ F).
    + exists x. inversion Hw; subst. split; eauto.
  - exists Y. split; [|exists []; constructor]. intros H. exact (HY H).
Qed.

(** what is true of every position that Clr and Lalr make *)
Definition Vu (p : position T) : Prop := vpos g p /\ met rules start (p_rule p) (snd (p_seq p)) (fst (p_seq p)) /\
  (forall x, term rules x -> In x (p_look p) -> met_look rules start eof (p_rule p) (snd (p_seq p)) (fst (p_seq p)) x) /\ (productive rules -> p_look p <> []).

Lemma Vu_v p : Vu p -> vpos g p.
Proof. now intros [H _]. Qed.

Lemma Vu_y p q : Vu p -> yields g lk p q -> Vu q.
Proof.
  intros (Hv & Hm & Hx & Hn) Hy. assert (wf_rules (g_rules g)) as Wg by now rewrite (Wr _ _ _ _ _ Hg).
  split; [exact (yields_vpos g Wg lk _ _ (clr_lk_ok _ _ _ _ _ W Hg _ F) Hv Hy)|].
  destruct Hy as (B & r & pr & Et & Hr & Hpr & ->). destruct p as [A pr' k l]. rewrite ptop_nth in Et. cbn [p_look p_rule p_seq] in *.
  rewrite (Wr _ _ _ _ _ Hg) in Hr. assert (nonterm rules B) as HB by (exists r; auto). apply (wf_prod_in _ _ _ _ W Hr) in Hpr.
  unfold clr_lk. rewrite pnext_nth. cbn [p_look]. destruct (nth_error (fst pr') (S k)) as [Y|] eqn:Ey.
  - destruct (nth_two _ _ _ _ Et Ey) as (u & v & Eu). rewrite Eu in Hm. split; [eapply met_next; eauto|]. split.
    + intros x Tx Hin. eapply met_first; eauto. eapply first_of_spec; eauto.
    + intros HP E. destruct (productive_first Y HP) as (x & Hf). assert (In x (first_of (t_first t0) [Y])) as Hin by (eapply first_of_spec; eauto; apply Hf).
      rewrite E in Hin. destruct Hin.
  - destruct (nth_last _ _ _ Et Ey) as (u & Eu). rewrite Eu in Hm. split; [eapply met_next; eauto|]. split.
    + intros x Tx Hin. specialize (Hx x Tx Hin). rewrite Eu in Hx. eapply met_last; eauto.
    + exact Hn.
Qed.

Lemma Vu_a p X : Vu p -> ptop p = Some X -> Vu (adv p).
Proof. intros (Hv & Hm & Hx & Hn) Et. split; [eapply adv_vpos; eauto|]. auto. Qed.

Lemma Vu_m p : sorted (p_look p) -> (exists q, Vu q /\ no_look q = no_look p /\ incl (p_look q) (p_look p)) ->
  (forall x, In x (p_look p) -> exists q, Vu q /\ no_look q = no_look p /\ In x (p_look q)) -> Vu p.
Proof.
  destruct p as [A pr k l]. unfold no_look. cbn [p_look p_rule p_seq p_point]. intros Hs (q & ((Hb & _) & Hm & _ & Hn) & Eq & Hi) Hx.
  destruct q as [A1 pr1 k1 l1]. cbn [p_rule p_seq p_point p_look] in *. injection Eq as -> -> ->.
  split; [split; [|split]|split; [|split]]; cbn [p_look p_rule p_seq p_point]; auto.
  - intros x Hin. destruct (Hx x Hin) as (q' & ((_ & _ & Hi') & _) & _ & Hin'). auto.
  - intros x Tx Hin. destruct (Hx x Hin) as (q' & (_ & _ & Hq & _) & Eq' & Hin'). injection Eq' as E1 E2 _. rewrite <- E1, <- E2. auto.
  - intros HP ->. apply (Hn HP). destruct l1 as [|x l1]; auto. destruct (Hi x). now left.
Qed.

Lemma Vu_b : Vu (g_basis g).
Proof.
  split; [exact (basis_vpos _ _ _ _ _ W Hg)|]. destruct (Wp0 _ _ _ _ _ W Hg) as (p0 & -> & Hp & Hz). cbn [p_look p_rule p_seq]. split; [|split].
  - rewrite Hz. constructor. exact Hp.
  - intros x _ [<-|[]]. rewrite Hz. constructor. exact Hp.
  - discriminate.
Qed.
End Facts.

Section One.
Variables (k : method) (t : tabler T).
Hypothesis Hm : makes k dbg g t.

Lemma states_Vu : k <> SLR -> forall q row pos, nth_error (t_states t) q = Some row -> In pos row -> Vu pos.
Proof.
  intros Hk q row pos Hq Hp. destruct (makes_tabler _ _ _ _ _ W Hg _ _ Hm) as (t0 & _ & F & fuel & E). destruct k; [easy|..].
  - destruct (clr_inv _ _ _ _ _ W Hg _ F _ _ E) as (_ & _ & _ & HC & _). eapply canon_V; eauto using Vu_b, Vu_a. exact (Vu_y _ F).
  - destruct E as (p & E). destruct (lalr_inv _ _ _ _ _ W Hg _ F _ _ _ E) as (_ & _ & _ & Es & _). unfold lalr_with_table in E.
    rewrite (tf_grammar _ _ _ _ _ _ F) in E. apply bind_val in E as (p' & E1 & E2). apply bind_val in E2 as (acts & _ & [= <- <-]).
    destruct (lalr_closures_spec dbg start eof rules g W Hg _ _ (clr_closure_ok g (t_first t0)) (clr_lk_ok _ _ _ _ _ W Hg _ F)
      Vu Vu_v (Vu_y _ F) Vu_a Vu_m Vu_b (fun _ => True) (fun _ _ _ _ _ => I) (fun _ _ _ _ _ _ => I) fuel p' E1) as [IL _].
    rewrite Es in Hq. exact (li_V _ _ _ _ _ IL _ _ _ Hq Hp).
Qed.

Lemma reduce_pos q row x a A pr : nth_error (t_actions t) q = Some row -> bm_get x row = Some a -> inside (Reduce A pr) a ->
  exists srow l, nth_error (t_states t) q = Some srow /\ In (mkPos A pr (length (fst pr)) l) srow /\ A <> start /\ allows k t (mkPos A pr (length (fst pr)) l) x.
Proof.
  intros Hq Hx Hi. destruct (table_exact _ _ _ _ _ W Hg _ _ Hm) as (go & _ & _ & D). destruct (D _ _ Hq) as (_ & D1 & _).
  assert (decides k t go q x (Reduce A pr)) as H by (apply D1; eauto). clear D D1. remember (Reduce A pr) as b eqn:Eb.
  destruct H as [|?|srow pos x Hr Hp Hd Ha Hs|]; try discriminate Eb. injection Eb as <- <-.
  destruct pos as [A pr j l]. cbn [p_rule p_seq] in *. exists srow, l. assert (j = length (fst pr)) as ->.
  { destruct (Wp0 _ _ _ _ _ W Hg) as (p0 & Hp0 & _). destruct (makes_made _ _ _ _ _ W Hg _ _ _ Hm Hp0) as (sfk & lookf & X).
    assert (has (t_states t) q A pr j) as H by (exists srow, l; auto). apply (l_valid _ _ _ _ _ _ _ _ (m_lr0 _ _ _ _ _ _ _ _ _ _ X)) in H as [_ H].
    unfold at_dot in Hd. cbn in Hd. apply nth_error_None in Hd. lia. }
  split; auto. split; auto. split; auto. destruct (Wp0 _ _ _ _ _ W Hg) as (p0 & Hp0 & _). now rewrite (makes_grammar _ _ _ _ _ W Hg _ _ Hm), Hp0 in Hs.
Qed.

Lemma pos_reduce q srow A pr l x : nth_error (t_states t) q = Some srow -> In (mkPos A pr (length (fst pr)) l) srow -> A <> start ->
  allows k t (mkPos A pr (length (fst pr)) l) x -> exists row a, nth_error (t_actions t) q = Some row /\ bm_get x row = Some a /\ inside (Reduce A pr) a.
Proof.
  intros Hq Hp Hs Ha. destruct (table_exact _ _ _ _ _ W Hg _ _ Hm) as (go & _ & HL & D).
  destruct (nth_error (t_actions t) q) as [row|] eqn:Eq.
  2:{ apply nth_error_None in Eq. rewrite HL in Eq. apply nth_error_None in Eq. congruence. }
  destruct (D _ _ Eq) as (_ & D1 & _). exists row. destruct (proj2 (D1 x (Reduce A pr))) as (a & H1 & H2); eauto.
  apply (decides_reduce k t go q srow (mkPos A pr (length (fst pr)) l)); auto.
  - unfold at_dot. cbn. now apply nth_error_None.
  - destruct (Wp0 _ _ _ _ _ W Hg) as (p0 & Hp0 & _). now rewrite (makes_grammar _ _ _ _ _ W Hg _ _ Hm), Hp0.
Qed.

Lemma met_follow A i rhs : productive rules -> met rules start A i rhs -> exists x, follow_rules rules start eof A x.
Proof.
  intros HP. destruct (makes_tabler _ _ _ _ _ W Hg _ _ Hm) as (t0 & _ & F & _).
  induction 1 as [rhs Hr|A i u B v j rhs H IH Hr]; [exists eof; constructor|].
  assert (nonterm rules B) as HB by (destruct Hr as (r & ? & E & _); exists r; auto). apply met_prod in H.
  destruct v as [|Y v].
  - destruct IH as (x & Hx). exists x. eapply fr_last; eauto.
  - destruct (productive_first _ F Y HP) as (x & Hx). exists x. eapply fr_first; eauto.
Qed.

(** *** by which alternatives a table reduces *)
Lemma reduces_met : productive rules -> forall A i rhs, A <> start ->
  ((exists q row x a, nth_error (t_actions t) q = Some row /\ bm_get x row = Some a /\ inside (Reduce A (rhs, i)) a) <-> met rules start A i rhs).
Proof.
  intros HP A i rhs Hs. split.
  - intros (q & row & x & a & Hq & Hx & Hi). destruct (reduce_pos _ _ _ _ _ _ Hq Hx Hi) as (srow & l & H1 & H2 & _).
    eapply (has_met _ _ _ _ _ W Hg k t Hm q A (rhs, i)). exists srow, l. eauto.
  - intros H. destruct (met_has _ _ _ _ _ W Hg k t Hm _ _ _ H (length rhs) (Nat.le_refl _)) as (q & srow & l & Hq & Hp).
    assert (exists x, allows k t (mkPos A (rhs, i) (length (fst (rhs, i))) l) x) as (x & Hx).
    { assert (k <> SLR -> exists x, In x l) as Hl.
      { intros Hk. destruct (states_Vu Hk _ _ _ Hq Hp) as (_ & _ & _ & N). cbn in N. destruct l as [|x l]; [now destruct (N HP)|exists x; now left]. }
      destruct (met_follow _ _ _ HP H) as (x & Hx).
      destruct k; cbn [allows p_look p_rule]; [|apply Hl; discriminate..]. exists x.
      destruct (makes_tabler _ _ _ _ _ W Hg _ _ Hm) as (t0 & _ & F & fuel & E). destruct (slr_inv _ _ _ _ _ W Hg _ F _ _ E) as (_ & _ & -> & _).
      exact (tf_follow_complete _ _ _ _ _ _ F He _ _ Hx). }
    destruct (pos_reduce q srow A (rhs, i) l x Hq Hp Hs Hx) as (row & a & H1 & H2 & H3). eauto 8.
Qed.

(** *** and in which columns *)
Lemma columns_sound : k <> SLR -> forall q row x a A i rhs, term rules x -> nth_error (t_actions t) q = Some row -> bm_get x row = Some a ->
  inside (Reduce A (rhs, i)) a -> met_look rules start eof A i rhs x.
Proof.
  intros Hk q row x a A i rhs Tx Hq Hx Hi. destruct (reduce_pos _ _ _ _ _ _ Hq Hx Hi) as (srow & l & H1 & H2 & _ & H3).
  destruct (states_Vu Hk _ _ _ H1 H2) as (_ & _ & HL & _). apply (HL x Tx). destruct k; [easy|exact H3..].
Qed.

Lemma met_look_term A i rhs x : met_look rules start eof A i rhs x -> term rules x.
Proof. induction 1; auto. now destruct H0. Qed.

Lemma met_look_hasl p0 sfk lookf : g_basis g = mkPos start p0 0 [eof] -> made start eof rules g k t p0 (t_states t) sfk lookf -> k = CLR \/ carries t ->
  forall A i rhs x, met_look rules start eof A i rhs x -> forall p, p <= length rhs -> exists q, hasl (t_states t) lookf q A (rhs, i) p x.
Proof.
  intros Hp0 X Hk. pose proof (m_lr0 _ _ _ _ _ _ _ _ _ _ X) as L.
  assert (lr1c g start eof p0 (t_states t) sfk lookf) as C by (apply (m_lr1c _ _ _ _ _ _ _ _ _ _ X); auto; destruct Hk as [->|]; [left; discriminate|auto]).
  assert (forall A pr x q, hasl (t_states t) lookf q A pr 0 x -> forall p, p <= length (fst pr) -> exists q, hasl (t_states t) lookf q A pr p x) as Adv.
  { intros A pr x q H p. induction p as [|p IH]; intros Hle; [eauto|]. destruct IH as (q1 & H1); [lia|].
    destruct (nth_error (fst pr) p) as [Y|] eqn:E; [|apply nth_error_None in E; lia].
    destruct (l_tr _ _ _ _ _ _ _ _ L _ _ _ _ _ (hasl_has _ _ _ _ _ _ _ H1) E) as (n & Hn). exists n. eapply (c_fwd _ _ _ _ _ _ _ C); eauto. }
  destruct (Wp0 _ _ _ _ _ W Hg) as (p1 & Hp1 & Hp2 & Hp3). assert (p1 = p0) as -> by congruence.
  induction 1 as [rhs Hr|A i u B Y v j rhs x HM HF Hr|A i u B j rhs x HM IH Hr]; intros p Hle.
  - assert (p0 = (rhs, 0)) as E0. { destruct p0 as [r0 n0]. cbn in *. subst n0. f_equal. destruct Hp2 as (r1 & k1 & E1 & E2), Hr as (r2 & k2 & E3 & E4). congruence. }
    subst p0. eapply (Adv start (rhs, 0)); eauto. apply (c_start _ _ _ _ _ _ _ C).
  - destruct (met_has _ _ _ _ _ W Hg k t Hm _ _ _ HM (length u)) as (q & Hq); [rewrite app_length; lia|].
    eapply (Adv B (rhs, j)); eauto. eapply (c_first _ _ _ _ _ _ _ C); eauto.
    + cbn [fst]. rewrite nth_error_app2 by lia. now rewrite Nat.sub_diag.
    + cbn [fst]. rewrite nth_error_app2 by lia. replace (S (length u) - length u) with 1 by lia. reflexivity.
    + now rewrite (Wr _ _ _ _ _ Hg).
    + now rewrite (Wr _ _ _ _ _ Hg).
  - destruct (IH (length u)) as (q & Hq); [rewrite app_length; lia|].
    eapply (Adv B (rhs, j)); eauto. eapply (c_last _ _ _ _ _ _ _ C); eauto.
    + rewrite (Wr _ _ _ _ _ Hg). eapply met_look_term; eauto.
    + cbn [fst]. rewrite nth_error_app2 by lia. now rewrite Nat.sub_diag.
    + cbn [fst]. apply nth_error_None. rewrite app_length. cbn. lia.
    + now rewrite (Wr _ _ _ _ _ Hg).
Qed.

Lemma columns_exact : k = CLR \/ k = LALR /\ carries t -> forall A i rhs x, A <> start -> term rules x ->
  ((exists q row a, nth_error (t_actions t) q = Some row /\ bm_get x row = Some a /\ inside (Reduce A (rhs, i)) a) <-> met_look rules start eof A i rhs x).
Proof.
  intros Hk A i rhs x Hs Tx. split.
  - intros (q & row & a & Hq & Hx & Hi). eapply columns_sound; eauto. destruct Hk as [->|[-> _]]; discriminate.
  - intros H. destruct (Wp0 _ _ _ _ _ W Hg) as (p0 & Hp0 & _). destruct (makes_made _ _ _ _ _ W Hg _ _ _ Hm Hp0) as (sfk & lookf & X).
    assert (k = CLR \/ carries t) as Hk' by tauto.
    destruct (met_look_hasl _ _ _ Hp0 X Hk' _ _ _ _ H (length rhs) (Nat.le_refl _)) as (q & row & l & look & Hq & Hp & El & Hx).
    pose proof (m_lr0 _ _ _ _ _ _ _ _ _ _ X) as L. destruct (row_spec _ _ _ _ _ _ _ _ L _ _ Hq) as (m & Em & _ & Hok & _).
    destruct (proj2 (Hok x (Reduce A (rhs, i)))) as (a & Ha & Hi).
    + exists (mkPos A (rhs, i) (length rhs) l). split; auto. apply (dec_reduce g lookf sfk start row (mkPos A (rhs, i) (length rhs) l) x look); auto.
      rewrite ptop_nth. now apply nth_error_None.
    + exists q, m, a. split; auto. split; auto. now apply inside_leaves.
Qed.

Lemma columns_slr : k = SLR -> dbg = true \/ only_terminals t -> forall A i rhs x, A <> start -> term rules x ->
  ((exists q row a, nth_error (t_actions t) q = Some row /\ bm_get x row = Some a /\ inside (Reduce A (rhs, i)) a) <->
   met rules start A i rhs /\ follow_rules rules start eof A x).
Proof.
  intros Hk Hd A i rhs x Hs Tx. pose proof (reduce_pos) as RP. pose proof (pos_reduce) as PR.
  destruct (makes_terminals _ _ _ _ _ W Hg _ _ Hm Hd) as (t0 & Ht0 & _ & _ & Hf & _). pose proof (tmakes_facts _ _ _ _ _ W Hg _ Ht0) as F.
  destruct (makes_with _ _ _ _ _ W Hg _ _ _ Ht0 Hm) as (fuel & E). rewrite Hk in E, RP, PR. destruct (slr_inv _ _ _ _ _ W Hg _ F _ _ E) as (_ & _ & Ef & _). split.
  - intros (q & row & a & Hq & Hx & Hi). destruct (RP _ _ _ _ _ _ Hq Hx Hi) as (srow & l & H1 & H2 & _ & H3). split.
    + eapply (has_met _ _ _ _ _ W Hg k t Hm q A (rhs, i)). exists srow, l. eauto.
    + cbn [allows p_rule] in H3. rewrite Ef in H3. apply (tf_follow_sound _ _ _ _ _ _ F He Hf); auto.
  - intros [HM HF]. destruct (met_has _ _ _ _ _ W Hg k t Hm _ _ _ HM (length rhs) (Nat.le_refl _)) as (q & srow & l & Hq & Hp).
    exists q. apply (PR q srow A (rhs, i) l x Hq Hp Hs). cbn [allows p_rule]. rewrite Ef. exact (tf_follow_complete _ _ _ _ _ _ F He _ _ HF).
Qed.

(** accepting is what the start symbol has in the place of reducing *)
Lemma accept_exact : k = CLR \/ k = LALR /\ carries t -> forall x, term rules x ->
  ((exists q row a, nth_error (t_actions t) q = Some row /\ bm_get x row = Some a /\ inside Acc a) <-> exists i rhs, met_look rules start eof start i rhs x).
Proof.
  intros Hk x Tx. destruct (Wp0 _ _ _ _ _ W Hg) as (p0 & Hp0 & _). split.
  - intros (q & row & a & Hq & Hx & Hi). destruct (table_exact _ _ _ _ _ W Hg _ _ Hm) as (go & _ & _ & D). destruct (D _ _ Hq) as (_ & D1 & _).
    assert (decides k t go q x Acc) as H by (apply D1; eauto). clear D D1. remember (Acc (T := T)) as b eqn:Eb.
    destruct H as [| | |srow pos x Hr Hp Hd Ha Hs]; try discriminate Eb. rewrite (makes_grammar _ _ _ _ _ W Hg _ _ Hm), Hp0 in Hs. cbn [p_rule] in Hs.
    assert (k <> SLR) as Hk' by (destruct Hk as [->|[-> _]]; discriminate). destruct (states_Vu Hk' _ _ _ Hr Hp) as (_ & _ & HL & _).
    rewrite Hs in HL. exists (snd (p_seq pos)), (fst (p_seq pos)). apply (HL x Tx). destruct k; [easy|exact Ha..].
  - intros (i & rhs & H). destruct (makes_made _ _ _ _ _ W Hg _ _ _ Hm Hp0) as (sfk & lookf & X). assert (k = CLR \/ carries t) as Hk' by tauto.
    destruct (met_look_hasl _ _ _ Hp0 X Hk' _ _ _ _ H (length rhs) (Nat.le_refl _)) as (q & row & l & look & Hq & Hp & El & Hx).
    pose proof (m_lr0 _ _ _ _ _ _ _ _ _ _ X) as L. destruct (row_spec _ _ _ _ _ _ _ _ L _ _ Hq) as (m & Em & _ & Hok & _).
    destruct (proj2 (Hok x Acc)) as (a & Ha & Hi).
    + exists (mkPos start (rhs, i) (length rhs) l). split; auto. apply (dec_acc g lookf sfk start row (mkPos start (rhs, i) (length rhs) l) x look); auto.
      rewrite ptop_nth. now apply nth_error_None.
    + exists q, m, a. split; auto. split; auto. now apply inside_leaves.
Qed.
End One.
End Reduces.
