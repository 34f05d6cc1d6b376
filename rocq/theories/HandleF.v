(** C88 and C89 for the tables [makes] builds. *)
From Coq Require Import List Bool Arith Lia.
From Verif Require Import BTree Model Base Spec SpecP Interface GrammarP FirstFollow Closure Canon ActTab LR Sound CanonLR Prefix Merged Lalr LalrLR Agree Wrap Final Export LR1Spec Handle.
Import ListNotations.

Section HandleF.
Context {T : Type} {OT : Ord T}.
Variables (dbg : bool) (start eof : T) (rules : rulemap T) (g : grammar T).
Hypothesis W : wf_rules rules.
Hypothesis Hg : grammar_new dbg start rules eof = Val g.

Let Er : g_rules g = rules := proj1 (grammar_new_inv _ _ _ _ _ Hg).

Lemma one_start p0 : g_basis g = mkPos start p0 0 [eof] -> single_start rules start ->
  forall i rhs, prod_at (g_rules g) start i rhs -> (rhs, i) = p0.
Proof.
  intros Hb Hs i rhs Hp. rewrite Er in Hp. pose proof (Hs _ _ Hp) as ->.
  destruct (Wp0 _ _ _ _ _ W Hg) as (p1 & Hb1 & Hp1 & E1). assert (p1 = p0) as -> by congruence.
  rewrite <- Er in Hp, Hp1. pose proof (prod_at_fun _ _ _ _ _ Hp Hp1). destruct p0; simpl in *. congruence.
Qed.

Lemma clr_reach fuel t t' : tabler_facts dbg start eof rules g t -> clr_with_table dbg fuel t = Val t' ->
  forall q, q < length (t_states t') -> exists qs Xs, path (t_states t') (sfk_plain (t_kernels t')) (q :: qs) Xs.
Proof.
  intros F Hc. destruct (clr_inv _ _ _ _ _ W Hg _ F _ _ Hc) as (_ & _ & _ & HC & _). exact (canon_reach _ _ _ _ HC).
Qed.

Lemma slr_reach fuel t t' : tabler_facts dbg start eof rules g t -> slr_with_table dbg fuel t = Val t' ->
  forall q, q < length (t_states t') -> exists qs Xs, path (t_states t') (sfk_plain (t_kernels t')) (q :: qs) Xs.
Proof.
  intros F Hc. destruct (slr_inv _ _ _ _ _ W Hg _ F _ _ Hc) as (_ & _ & _ & HC & _). exact (canon_reach _ _ _ _ HC).
Qed.

Lemma clr_clean_LR1 t' : makes CLR dbg g t' -> term rules eof -> dbg = true \/ single_start rules start ->
  conflicts (t_actions t') = [] -> LR1 rules start eof.
Proof.
  intros Hm He Hs Hc. assert (single_start rules start) as H1 by (destruct Hs; eauto using debug_single).
  destruct (makes_tabler _ _ _ _ _ W Hg _ _ Hm) as (t & Ht & _ & Em). pose proof (tmakes_facts _ _ _ _ _ W Hg _ Ht) as F.
  destruct Em as (fm & Em). destruct (Wp0 _ _ _ _ _ W Hg) as (p0 & Hp0 & _).
  pose proof (clr_lr0 _ _ _ _ _ W Hg _ F _ _ Em _ Hp0) as L. pose proof (clr_lr1c _ _ _ _ _ W Hg _ F _ _ Em _ Hp0) as C.
  pose proof (one_start _ Hp0 H1) as H2. rewrite <- Er. rewrite <- Er in He. eapply clean_LR1; eauto.
Qed.

Lemma LR1_clr_clean t' : makes CLR dbg g t' -> term rules eof -> dbg = true \/ only_terminals t' -> productive rules ->
  LR1 rules start eof -> conflicts (t_actions t') = [].
Proof.
  intros Hm He Ho Hp H1. destruct (makes_terminals _ _ _ _ _ W Hg _ _ Hm Ho) as (t & Ht & _ & _ & Hf & _). pose proof (tmakes_facts _ _ _ _ _ W Hg _ Ht) as F.
  destruct (makes_with _ _ _ _ _ W Hg _ _ _ Ht Hm) as (fm & Em). destruct (Wp0 _ _ _ _ _ W Hg) as (p0 & Hp0 & _).
  pose proof (clr_lr0 _ _ _ _ _ W Hg _ F _ _ Em _ Hp0) as L. pose proof (clr_lr1s _ _ _ _ _ W Hg _ F _ _ Em _ Hp0) as S1.
  assert (Q : forall q A pr k x, hasl (t_states t') clr_look q A pr k x -> term (g_rules g) x).
  { intros q A pr k x H. rewrite Er. exact (clr_look_Q _ _ _ _ _ W Hg _ F _ _ _ _ _ _ _ _ Em (Qterm _ _ _ _ _ _ F He Hf) H). }
  rewrite <- Er in H1, Hp. exact (LR1_clean _ _ _ _ _ _ _ _ L Hp Q (clr_reach _ _ _ F Em) S1 H1).
Qed.

Lemma slr_clean_SLR1 t' : makes SLR dbg g t' -> term rules eof -> dbg = true \/ single_start rules start ->
  conflicts (t_actions t') = [] -> SLR1 rules start eof.
Proof.
  intros Hm He Hs Hc. assert (single_start rules start) as H1 by (destruct Hs; eauto using debug_single).
  destruct (makes_tabler _ _ _ _ _ W Hg _ _ Hm) as (t & Ht & _ & Em). pose proof (tmakes_facts _ _ _ _ _ W Hg _ Ht) as F.
  destruct Em as (fm & Em). destruct (Wp0 _ _ _ _ _ W Hg) as (p0 & Hp0 & _).
  pose proof (slr_lr0 _ _ _ _ _ W Hg _ F _ _ Em _ Hp0) as L. pose proof (one_start _ Hp0 H1) as H2.
  destruct (follow_upper _ _ _ _ _ W Hg _ Ht He) as [U _].
  rewrite <- Er in U. rewrite <- Er. eapply clean_SLR1; eauto.
  intros q A pr p x Hh Hx. apply slr_hasl. split; auto. now apply U.
Qed.

Lemma SLR1_slr_clean t' : makes SLR dbg g t' -> term rules eof -> dbg = true \/ only_terminals t' -> productive rules ->
  SLR1 rules start eof -> conflicts (t_actions t') = [].
Proof.
  intros Hm He Ho Hp H1. destruct (makes_terminals _ _ _ _ _ W Hg _ _ Hm Ho) as (t & Ht & Ef & Ew & Hf & Hw). pose proof (tmakes_facts _ _ _ _ _ W Hg _ Ht) as F.
  destruct (makes_with _ _ _ _ _ W Hg _ _ _ Ht Hm) as (fm & Em). destruct (Wp0 _ _ _ _ _ W Hg) as (p0 & Hp0 & _).
  pose proof (slr_lr0 _ _ _ _ _ W Hg _ F _ _ Em _ Hp0) as L.
  assert (Q : forall q A pr k x, hasl (t_states t') (slr_look (t_follow t)) q A pr k x -> term (g_rules g) x).
  { intros q A pr k x H. apply slr_hasl in H as [_ H]. rewrite Er. eauto. }
  destruct (follow_upper _ _ _ _ _ W Hg _ Ht He) as [U _].
  assert (U2 : forall q A pr p x, hasl (t_states t') (slr_look (t_follow t)) q A pr p x <-> has (t_states t') q A pr p /\ follow_rules (g_rules g) start eof A x).
  { intros q A pr p x. rewrite slr_hasl. split; intros [K1 K2]; split; auto; rewrite Er in *.
    - apply (tf_follow_sound _ _ _ _ _ _ F He Hf A x); auto. eauto.
    - now apply U. }
  rewrite <- Er in H1, Hp. exact (SLR1_clean _ _ _ _ _ _ _ _ L Hp Q (slr_reach _ _ _ F Em) U2 H1).
Qed.

(** *** C88 *)
Lemma clr_LR1 t' : makes CLR dbg g t' -> term rules eof -> dbg = true \/ single_start rules start ->
  (conflicts (t_actions t') = [] -> LR1 rules start eof) /\
  (dbg = true \/ only_terminals t' -> productive rules -> LR1 rules start eof -> conflicts (t_actions t') = []).
Proof. intros Hm He Hs. split; eauto using clr_clean_LR1, LR1_clr_clean. Qed.

(** *** C89 *)
Lemma slr_SLR1 t' : makes SLR dbg g t' -> term rules eof -> dbg = true \/ single_start rules start ->
  (conflicts (t_actions t') = [] -> SLR1 rules start eof) /\
  (dbg = true \/ only_terminals t' -> productive rules -> SLR1 rules start eof -> conflicts (t_actions t') = []).
Proof. intros Hm He Hs. split; eauto using slr_clean_SLR1, SLR1_slr_clean. Qed.

(** ** LALR(1) *)
Lemma lalr_inj fuel t t' p : tabler_facts dbg start eof rules g t -> lalr_with_table dbg fuel t = Val (t', p) ->
  forall q q', q < length (l_states p) -> q' < length (l_states p) -> alike (l_states p) q q' -> q = q'.
Proof.
  intros F Hl.
  assert (X : forall q, q < length (l_states p) -> (q = 0 /\ forall A pr k, has (l_states p) q A pr k -> k = 0) \/
     exists seed fk, seed <> [] /\ sorted seed /\ (forall b, In b seed -> p_look b = [] /\ 0 < p_point b) /\ bm_get seed (l_raws p) = Some fk /\ bm_get fk (l_kernels p) = Some q /\
       forall A pr k, In (mkPos A pr (S k) []) seed <-> has (l_states p) q A pr (S k)).
  { intros q Hq. destruct (nth_error (l_states p) q) as [row|] eqn:E; [|apply nth_error_None in E; lia].
    destruct (lalr_row _ _ _ _ _ W Hg _ F _ _ _ Hl _ _ E) as (seed & Hs & [[-> ->]|(_ & N & fk & Hr & Hk & j & row' & Y & _ & _ & ->)]).
    - left. split; auto. intros A pr k. rewrite lhas. intros (row1 & E1 & H1). rewrite E in E1. injection E1 as <-. apply Hs, clo_point in H1 as [[H1|[]]|H1]; auto.
      destruct (Wp0 _ _ _ _ _ W Hg) as (p0 & Hp0 & _). rewrite Hp0 in H1. unfold no_look in H1. simpl in H1. congruence.
    - right. exists (sym_filter (without_look row') Y), fk. split; auto. split; [apply sym_filter_sorted|].
      assert (forall b, In b (sym_filter (without_look row') Y) -> p_look b = [] /\ 0 < p_point b) as Hb.
      { intros b Hb. apply sym_filter_in in Hb as (pos & H1 & H2 & ->). apply without_look_in in H1 as (pos' & _ & <-). simpl. split; auto. lia. }
      split; auto. split; auto. split; auto. intros A pr k. rewrite lhas. split.
      + intros H1. exists row. split; auto. apply Hs. now constructor.
      + intros (row1 & E1 & H1). rewrite E in E1. injection E1 as <-. apply Hs, clo_point in H1 as [H1|H1]; auto. discriminate. }
  assert (Y : forall q seed, (forall b, In b seed -> p_look b = [] /\ 0 < p_point b) ->
     (forall A pr k, In (mkPos A pr (S k) []) seed <-> has (l_states p) q A pr (S k)) -> seed <> [] -> exists A pr k, has (l_states p) q A pr (S k)).
  { intros q [|[A pr [|k] l] seed] Hb Hh N; [congruence| |]; destruct (Hb _ (or_introl eq_refl)) as [H1 H2]; simpl in *; [lia|]. subst l.
    exists A, pr, k. apply Hh. now left. }
  intros q q' Hq Hq' Hal. destruct (X q Hq) as [[-> H0]|(seed & fk & N & So & Hb & Hr & Hk & Hh)]; destruct (X q' Hq') as [[-> H0']|(seed' & fk' & N' & So' & Hb' & Hr' & Hk' & Hh')]; auto.
  - destruct (Y _ _ Hb' Hh' N') as (A & pr & k & H). apply Hal, H0 in H. discriminate.
  - destruct (Y _ _ Hb Hh N) as (A & pr & k & H). apply Hal, H0' in H. discriminate.
  - assert (seed = seed') as <-; [|congruence]. apply sorted_ext; auto. intros [A pr [|k] l]; split; intros H.
    + destruct (Hb _ H) as [_ Hz]. simpl in Hz. lia.
    + destruct (Hb' _ H) as [_ Hz]. simpl in Hz. lia.
    + destruct (Hb _ H) as [El _]. simpl in El. subst l. apply Hh', Hal, Hh, H.
    + destruct (Hb' _ H) as [El _]. simpl in El. subst l. apply Hh, Hal, Hh', H.
Qed.

Lemma lalr_carries fuel t t' p p0 : tabler_facts dbg start eof rules g t -> lalr_with_table dbg fuel t = Val (t', p) -> g_basis g = mkPos start p0 0 [eof] ->
  carries t' -> lr1c g start eof p0 (l_states p) (sfk_lalr p) clr_look.
Proof.
  intros F E Hp0 Hc. destruct (lalr_inv _ _ _ _ _ W Hg _ F _ _ _ E) as (H1 & _ & _ & H2 & _).
  pose proof (lalr_lr0 _ _ _ _ _ W Hg _ F _ _ _ E _ Hp0) as L. eapply lalr_lr1c; eauto.
  intros q X n A pr i x Ht Hh Hn. apply lalr_hasl in Hh as (row & l & Hr & Hi & Hx).
  pose proof (l_len _ _ _ _ _ _ _ _ L _ _ _ Ht) as Hlen. apply nth_error_Some in Hlen.
  destruct (nth_error (l_states p) n) as [row'|] eqn:En; [|congruence].
  rewrite <- H2 in L, Ht, Hr, En. apply (tr_moves _ _ _ _ _ _ _ _ _ _ L) in Ht.
  destruct (Hc q X n row row' (mkPos A pr i l) Ht Hr En Hi Hn) as ([A1 pr1 i1 l1] & Hi1 & E1 & E2 & E3 & Hinc).
  cbn [p_rule p_seq p_point p_look] in *. subst A1 pr1 i1. apply lalr_hasl. exists row', l1. rewrite <- H2. auto.
Qed.

Lemma lalr_clean_LALR1 t' : makes LALR dbg g t' -> carries t' -> term rules eof -> dbg = true \/ (single_start rules start /\ only_terminals t') ->
  productive rules -> conflicts (t_actions t') = [] -> LALR1 rules start eof.
Proof.
  intros Hm Hk He Hs Hp Hc. assert (single_start rules start) as H1 by (destruct Hs as [Hs|[Hs _]]; eauto using debug_single).
  assert (dbg = true \/ only_terminals t') as Ho by tauto.
  destruct (makes_terminals _ _ _ _ _ W Hg _ _ Hm Ho) as (t & Ht & _ & _ & Hf & _). pose proof (tmakes_facts _ _ _ _ _ W Hg _ Ht) as F.
  destruct (makes_with _ _ _ _ _ W Hg _ _ _ Ht Hm) as (fm & p & Em). destruct (Wp0 _ _ _ _ _ W Hg) as (p0 & Hp0 & _).
  pose proof (lalr_lr0 _ _ _ _ _ W Hg _ F _ _ _ Em _ Hp0) as L.
  pose proof (lalr_carries _ _ _ _ _ F Em Hp0 Hk) as C.
  assert (Q : forall q A pr k x, hasl (l_states p) clr_look q A pr k x -> term (g_rules g) x).
  { intros q A pr k x H. rewrite Er. exact (lalr_look _ _ _ _ _ W Hg _ F _ _ _ Em _ _ _ _ _ _ (Qterm _ _ _ _ _ _ F He Hf) H). }
  rewrite <- Er in Hp, He. rewrite <- Er.
  apply (merge_LALR1 _ _ _ _ _ _ _ _ L (one_start _ Hp0 H1) Hp C He).
  exact (clean_merge _ _ _ _ _ _ _ _ L (one_start _ Hp0 H1) (lalr_inj _ _ _ _ F Em) Hc Q).
Qed.

(** LALR(1) is conflict-freedom of the Clr states merged by item sets *)
Lemma clr_merge_LALR1 t' : makes CLR dbg g t' -> term rules eof -> dbg = true \/ (single_start rules start /\ only_terminals t') ->
  productive rules -> (merge_clean (t_states t') clr_look <-> LALR1 rules start eof).
Proof.
  intros Hm He Hs Hp. assert (single_start rules start) as H1 by (destruct Hs as [Hs|[Hs _]]; eauto using debug_single).
  assert (dbg = true \/ only_terminals t') as Ho by tauto.
  destruct (makes_terminals _ _ _ _ _ W Hg _ _ Hm Ho) as (t & Ht & _ & _ & Hf & _). pose proof (tmakes_facts _ _ _ _ _ W Hg _ Ht) as F.
  destruct (makes_with _ _ _ _ _ W Hg _ _ _ Ht Hm) as (fm & Em). destruct (Wp0 _ _ _ _ _ W Hg) as (p0 & Hp0 & _).
  pose proof (clr_lr0 _ _ _ _ _ W Hg _ F _ _ Em _ Hp0) as L. pose proof (clr_lr1s _ _ _ _ _ W Hg _ F _ _ Em _ Hp0) as S1.
  pose proof (clr_lr1c _ _ _ _ _ W Hg _ F _ _ Em _ Hp0) as C.
  assert (Q : forall q A pr k x, hasl (t_states t') clr_look q A pr k x -> term (g_rules g) x).
  { intros q A pr k x H. rewrite Er. exact (clr_look_Q _ _ _ _ _ W Hg _ F _ _ _ _ _ _ _ _ Em (Qterm _ _ _ _ _ _ F He Hf) H). }
  rewrite <- Er in Hp, He. rewrite <- Er. split.
  - exact (merge_LALR1 _ _ _ _ _ _ _ _ L (one_start _ Hp0 H1) Hp C He).
  - exact (LALR1_merge _ _ _ _ _ _ _ _ L (one_start _ Hp0 H1) Hp Q (clr_reach _ _ _ F Em) S1).
Qed.

Lemma LALR1_clr_clean t' : makes CLR dbg g t' -> term rules eof -> dbg = true \/ (single_start rules start /\ only_terminals t') ->
  productive rules -> LALR1 rules start eof -> conflicts (t_actions t') = [].
Proof.
  intros Hm He Hs Hp Hl. pose proof (proj2 (clr_merge_LALR1 _ Hm He Hs Hp) Hl) as Hmc.
  assert (dbg = true \/ only_terminals t') as Ho by tauto.
  destruct (makes_terminals _ _ _ _ _ W Hg _ _ Hm Ho) as (t & Ht & _ & _ & Hf & _). pose proof (tmakes_facts _ _ _ _ _ W Hg _ Ht) as F.
  destruct (makes_with _ _ _ _ _ W Hg _ _ _ Ht Hm) as (fm & Em). destruct (Wp0 _ _ _ _ _ W Hg) as (p0 & Hp0 & _).
  pose proof (clr_lr0 _ _ _ _ _ W Hg _ F _ _ Em _ Hp0) as L.
  refine (merge_clean_clean _ _ _ _ _ _ _ _ L _ (clr_reach _ _ _ F Em) Hmc).
  intros q A pr k x H. rewrite Er. exact (clr_look_Q _ _ _ _ _ W Hg _ F _ _ _ _ _ _ _ _ Em (Qterm _ _ _ _ _ _ F He Hf) H).
Qed.
End HandleF.

(** ** deciding [merge_clean] *)
Section Merge_b.
Context {T : Type} {OT : Ord T}.

Definition done (p : position T) : bool := p_point p =? length (fst (p_seq p)).
Definition clash (x y : position T) : bool :=
  existsb (fun t => existsb (eqb t) (p_look y)) (p_look x) && negb (eqb (p_rule x) (p_rule y) && eqb (p_seq x) (p_seq y)).

Definition merge_b (sts : list (state T)) : bool :=
  forallb (fun r => forallb (fun r' => negb (eqb (without_look r) (without_look r')) ||
      forallb (fun x => negb (done x) || forallb (fun y => negb (done y) || negb (clash x y)) r') r) sts) sts &&
  forallb (fun r => forallb (fun x => negb (done x) ||
      forallb (fun y => match nth_error (fst (p_seq y)) (p_point y) with Some t => negb (existsb (eqb t) (p_look x)) | None => true end) r) r) sts.

Lemma clr_look_hasl sts q A pr p x : hasl (T := T) sts clr_look q A pr p x <->
  exists row l, nth_error sts q = Some row /\ In (mkPos A pr p l) row /\ In x l.
Proof.
  unfold hasl, clr_look. split.
  - intros (row & l & look & H1 & H2 & [= <-] & H3). eauto.
  - intros (row & l & H1 & H2 & H3). exists row, l, l. auto.
Qed.

Lemma existsb_eqb t (l : list T) : existsb (eqb t) l = true <-> In t l.
Proof.
  rewrite existsb_exists. split.
  - intros (x & H & E). destruct (eqb_spec t x); [now subst|discriminate].
  - intros H. exists t. split; auto. now destruct (eqb_spec t t).
Qed.

Lemma alike_wl sts q q' row row' : nth_error sts q = Some row -> nth_error sts q' = Some row' -> alike (T := T) sts q q' -> without_look row = without_look row'.
Proof.
  intros E E' H. assert (X : forall q row A pr k, nth_error sts q = Some row -> (In (mkPos A pr k []) (without_look row) <-> has sts q A pr k)).
  { clear. intros q row A pr k E. rewrite without_look_in. split.
    - intros ([A' pr' k' l] & H & Eq). injection Eq as <- <- <-. exists row, l. auto.
    - intros (row' & l & E' & H). assert (row' = row) as -> by congruence. exists (mkPos A pr k l). auto. }
  assert (Z : forall row b, In b (without_look row) -> p_look b = []).
  { clear. intros row b H. apply without_look_in in H as (x & _ & <-). reflexivity. }
  apply sorted_ext; auto using without_look_sorted.
  intros [A pr k l]. split; intros Hb; pose proof (Z _ _ Hb) as El; simpl in El; subst l.
  - apply (X q' row' _ _ _ E'). apply H. apply (X q row _ _ _ E). exact Hb.
  - apply (X q row _ _ _ E). apply H. apply (X q' row' _ _ _ E'). exact Hb.
Qed.

Lemma merge_b_ok sts : merge_b sts = true -> merge_clean (T := T) sts clr_look.
Proof.
  unfold merge_b. intros H. apply andb_true_iff in H as [Ha Hb]. split.
  - intros q q' A pr B pr' t Hal HA HB. apply clr_look_hasl in HA as (row & l & E & Hi & Ht), HB as (row' & l' & E' & Hi' & Ht').
    pose proof (alike_wl _ _ _ _ _ E E' Hal) as Ew. apply nth_error_In in E, E'.
    rewrite forallb_forall in Ha. specialize (Ha _ E). rewrite forallb_forall in Ha. specialize (Ha _ E').
    rewrite Ew in Ha. destruct (eqb_spec (without_look row') (without_look row')) as [_|N]; [|congruence]. cbn [negb orb] in Ha.
    rewrite forallb_forall in Ha. specialize (Ha _ Hi). unfold done in Ha. cbn [p_point p_seq] in Ha. rewrite Nat.eqb_refl in Ha. cbn [negb orb] in Ha.
    rewrite forallb_forall in Ha. specialize (Ha _ Hi'). cbn [p_point p_seq] in Ha. rewrite Nat.eqb_refl in Ha. cbn [negb orb] in Ha.
    unfold clash in Ha. cbn [p_look p_rule p_seq] in Ha.
    replace (existsb (fun t => existsb (eqb t) l') l) with true in Ha.
    2: { symmetry. apply existsb_exists. exists t. split; auto. now apply existsb_eqb. }
    destruct (eqb_spec A B); [|discriminate]. destruct (eqb_spec pr pr'); [|discriminate]. auto.
  - intros q A pr B pr' p t HA (row' & l' & E' & Hi') Hn. apply clr_look_hasl in HA as (row & l & E & Hi & Ht). assert (row' = row) as -> by congruence.
    apply nth_error_In in E. rewrite forallb_forall in Hb. specialize (Hb _ E). rewrite forallb_forall in Hb. specialize (Hb _ Hi).
    unfold done in Hb. cbn [p_point p_seq] in Hb. rewrite Nat.eqb_refl in Hb. cbn [negb orb] in Hb.
    rewrite forallb_forall in Hb. specialize (Hb _ Hi'). cbn [p_point p_seq p_look] in Hb. rewrite Hn in Hb.
    apply existsb_eqb in Ht. rewrite Ht in Hb. discriminate.
Qed.
End Merge_b.
