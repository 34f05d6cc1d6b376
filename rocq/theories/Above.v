(** Where Lalr's lookaheads come from, without conditions: each is one of a state of Clr that has at least the same items (C137). *)
From Coq Require Import List Bool Arith Lia.
From Verif Require Import BTree Model Base Spec SpecP Interface GrammarP FirstFollow Closure Canon ActTab LR Sound CanonLR Prefix Merged Lalr LalrKern LalrLR Agree Wrap Final Mono Export LR1Spec ValidSpec StatesSpec Cores Handle HandleF Valid Quotient ClrStates AgreeLalr Pass FoldSpec Fold FewerSpec Fewer.
Import ListNotations.

Section Above.
Context {T : Type} {OT : Ord T}.
Variables (dbg : bool) (start eof : T) (rules : rulemap T) (g : grammar T).
Hypothesis W : wf_rules rules.
Hypothesis Hg : grammar_new dbg start rules eof = Val g.
Variables (tl tc : tabler T).
Hypothesis Hl : makes LALR dbg g tl.
Hypothesis Hc : makes CLR dbg g tc.
Hypothesis He : term rules eof.
Hypothesis Ho : dbg = true \/ only_terminals tc.

(** state [q] of Clr has all items of [k] *)
Definition sup (q : nat) (k : state T) : Prop := forall b, In b k -> has (t_states tc) q (p_rule b) (p_seq b) (p_point b).

Definition above (k : state T) : Prop := (exists q, sup q k) /\
  forall b x, In b k -> In x (p_look b) -> term rules x /\ exists q, sup q k /\ hasl (t_states tc) clr_look q (p_rule b) (p_seq b) (p_point b) x.

Lemma lalr_above m srow : nth_error (t_states tl) m = Some srow -> above srow.
Proof.
  pose proof (Wr _ _ _ _ _ Hg) as ER. assert (wf_rules (g_rules g)) as Wg by (now rewrite ER).
  destruct (makes_terminals _ _ _ _ _ W Hg _ _ Hc Ho) as (t1 & Ht & _ & _ & Hf & _). pose proof (tmakes_facts _ _ _ _ _ W Hg _ Ht) as F.
  destruct (makes_with _ _ _ _ _ W Hg _ _ _ Ht Hl) as (fl & p & El). destruct (makes_with _ _ _ _ _ W Hg _ _ _ Ht Hc) as (fc & Ec).
  destruct (Wp0 _ _ _ _ _ W Hg) as (p0 & Hp0 & _).
  pose proof (clr_lr0 _ _ _ _ _ W Hg _ F _ _ Ec _ Hp0) as C. pose proof (clr_lr1c _ _ _ _ _ W Hg _ F _ _ Ec _ Hp0) as C1.
  pose proof (Qtrue start eof rules t1) as QQ.
  destruct (lalr_inv _ _ _ _ _ W Hg _ F _ _ _ El) as (_ & _ & _ & E2 & _). rewrite E2.
  unfold lalr_with_table in El. rewrite (tf_grammar _ _ _ _ _ _ F) in El. apply bind_val in El as (p' & E1 & El).
  apply bind_val in El as (acts & _ & [= _ <-]).
  assert (Ky : forall b q B, has (t_states tc) q (p_rule b) (p_seq b) (p_point b) -> forall b', yields g (clr_lk (t_first t1)) b b' -> B = p_rule b' ->
    ptop b = Some B /\ prod_at (g_rules g) B (snd (p_seq b')) (fst (p_seq b')) /\ p_point b' = 0 /\ p_look b' = clr_lk (t_first t1) b).
  { intros b q B _ b' (B' & r & pr & Et & Er & Hpr & ->) ->. cbn. split; auto. split; auto. eapply wf_prod_in; eauto. }
  assert (Ks : forall q k b, sup q k -> clo g (clr_lk (t_first t1)) k b -> has (t_states tc) q (p_rule b) (p_seq b) (p_point b)).
  { intros q k b S. induction 1 as [b Hb|b b' _ IH Hy]; auto. destruct (Ky _ _ _ IH _ Hy eq_refl) as (Et & Hp & E0 & _). rewrite E0, (surjective_pairing (p_seq b')).
    destruct b as [A pr k0 l]. rewrite ptop_nth in Et. eapply (l_clo _ _ _ _ _ _ _ _ C); eauto. }
  apply (lalr_closures_K dbg start eof rules g W Hg _ _ (clr_closure_ok g (t_first t1)) (clr_lk_ok _ _ _ _ _ W Hg _ F)
    (Vq g (fun _ _ => True)) (Vq_v _ _) (Vq_y _ _ _ _ _ W Hg _ F _ QQ) (Vq_a _ _) (Vq_m _ _) (Vq_b _ _ _ _ _ W Hg _ _ QQ) (rclosed g t1)
    (rclosed_c _ _ _) (rclosed_m _ _ _) above) with (5 := E1).
  - intros k c [(q0 & S0) Hk] _ Hcl.
    assert (forall q, sup q k -> sup q c) as Sc by (intros q S b Hb; apply Hcl in Hb; eauto).
    assert (forall b, clo g (clr_lk (t_first t1)) k b -> forall x, In x (p_look b) ->
      term rules x /\ exists q, sup q k /\ hasl (t_states tc) clr_look q (p_rule b) (p_seq b) (p_point b) x) as H.
    { intros b Hb. induction Hb as [b Hb|b b' Hb IH Hy]; auto. intros x Hx.
      destruct (Ky _ _ _ (Ks _ _ _ S0 Hb) _ Hy eq_refl) as (Et & Hp & E0 & El). rewrite El in Hx. rewrite E0, (surjective_pairing (p_seq b')).
      assert (forall q, sup q k -> has (t_states tc) q (p_rule b) (p_seq b) (p_point b)) as Hq by (intros q S; eauto).
      destruct b as [A pr k0 l]. cbn [p_rule p_seq p_point p_look] in *. rewrite ptop_nth in Et. unfold clr_lk in Hx. rewrite pnext_nth in Hx.
      destruct (nth_error (fst pr) (S k0)) as [Y|] eqn:Ey.
      - assert (term rules x) as Tx.
        { apply first_of_one in Hx as [[Hn ->]|Hx]; [|eauto]. intros HY. apply (tf_first_keys _ _ _ _ _ _ F) in HY as (s & Hs). congruence. }
        split; auto. exists q0. split; auto. eapply (c_first _ _ _ _ _ _ _ C1); eauto. rewrite ER. eapply first_of_spec; eauto.
      - destruct (IH x Hx) as (Tx & q & S & Hh). split; auto. exists q. split; auto. eapply (c_last _ _ _ _ _ _ _ C1); eauto. now rewrite ER. }
    split; [eauto|]. intros b x Hb Hx. apply Hcl in Hb. destruct (H _ Hb _ Hx) as (Tx & q & S & Hh). split; auto. exists q. auto.
  - intros k X [(q0 & S0) Hk] _.
    assert (forall q b, sup q k -> In b k -> ptop b = Some X -> exists n, tr (t_states tc) (sfk_plain (t_kernels tc)) q X n /\ sup n (sym_filter k X)) as Hm.
    { intros q b S Hb Et. pose proof (S b Hb) as Hh. destruct b as [A pr k0 l]. rewrite ptop_nth in Et. cbn [p_rule p_seq p_point] in *.
      destruct (l_tr _ _ _ _ _ _ _ _ C _ _ _ _ _ Hh Et) as (n & Hn). exists n. split; auto. intros b' Hb'.
      apply sym_filter_in in Hb' as (b2 & Hb2 & Et2 & ->). pose proof (S b2 Hb2) as Hh2. destruct b2 as [A2 pr2 k2 l2]. rewrite ptop_nth in Et2.
      cbn [adv p_rule p_seq p_point] in *. eapply (l_fwd _ _ _ _ _ _ _ _ C); eauto. }
    split.
    + destruct (sym_filter k X) as [|b s] eqn:Es; [exists q0; intros b []|].
      assert (In b (sym_filter k X)) as Hb by (rewrite Es; left; auto). apply sym_filter_in in Hb as (b2 & Hb2 & Et2 & _).
      destruct (Hm q0 b2 S0 Hb2 Et2) as (n & _ & Sn). eauto.
    + intros b' x Hb' Hx. apply sym_filter_in in Hb' as (b & Hb & Et & ->). destruct (Hk b x Hb Hx) as (Tx & q & S & Hh). split; auto.
      destruct (Hm q b S Hb Et) as (n & Hn & Sn). exists n. split; auto. destruct b as [A pr k0 l]. rewrite ptop_nth in Et. cbn [adv p_rule p_seq p_point] in *.
      eapply (c_fwd _ _ _ _ _ _ _ C1); eauto.
  - intros k k' [(q0 & S0) Hk] [_ Hk'] Ew. set (s := bs_of_list (k ++ k')). pose proof (merged_spec s) as M.
    assert (forall b, In b (merged s) -> In (no_look b) (without_look k)) as Hb1.
    { intros b Hb. destruct (proj1 (mo_body _ _ M (no_look b))) as (b2 & Hb2 & Eb); eauto. rewrite <- Eb.
      apply bs_of_list_in, in_app_iff in Hb2 as [Hb2|Hb2]; [|rewrite Ew]; apply without_look_in; eauto. }
    assert (forall q k1, without_look k1 = without_look k -> sup q k1 -> sup q (merged s)) as Sm.
    { intros q k1 E1' S b Hb. apply Hb1 in Hb. rewrite <- E1' in Hb. apply without_look_in in Hb as (b2 & Hb2 & Eb). apply S in Hb2.
      destruct b, b2. injection Eb as <- <- <-. exact Hb2. }
    split; [exists q0; apply (Sm q0 k); auto|]. intros b x Hb Hx. apply (mo_look _ _ M) in Hx as (b2 & Hb2 & Eb & Hx2); auto.
    assert (term rules x /\ exists q, sup q (merged s) /\ hasl (t_states tc) clr_look q (p_rule b2) (p_seq b2) (p_point b2) x) as Hres.
    { apply bs_of_list_in, in_app_iff in Hb2 as [Hb2|Hb2]; [destruct (Hk _ _ Hb2 Hx2) as (Tx & q & S & Hh)|destruct (Hk' _ _ Hb2 Hx2) as (Tx & q & S & Hh)];
        (split; [auto|]); exists q; (split; [|auto]); [apply (Sm q k)|apply (Sm q k')]; auto. }
    destruct b, b2. injection Eb as <- <- <-. exact Hres.
  - pose proof (l_basis _ _ _ _ _ _ _ _ C) as Eb. rewrite Eb. split.
    + exists 0. intros b [<-|[]]. apply (l_start _ _ _ _ _ _ _ _ C).
    + intros b x [<-|[]] [<-|[]]. split; auto. exists 0. split; [|apply (c_start _ _ _ _ _ _ _ C1)]. intros b [<-|[]]. apply (l_start _ _ _ _ _ _ _ _ C).
Qed.

Lemma lalr_within m srow A i u v x : nth_error (t_states tl) m = Some srow -> item_look tl m A i u v x ->
  exists q srow', nth_error (t_states tc) q = Some srow' /\ (forall B pr p, (exists l, In (mkPos B pr p l) srow) -> exists l, In (mkPos B pr p l) srow') /\
    item_look tc q A i u v x.
Proof.
  intros Es Hi. apply look_hasl in Hi. destruct Hi as (row & l & lk & Er & Hin & [= <-] & Hx). rewrite Es in Er. injection Er as <-.
  destruct (proj2 (lalr_above _ _ Es) _ _ Hin Hx) as (_ & q & S & Hh). cbn [p_rule p_seq p_point] in Hh. pose proof Hh as (srow' & _ & _ & Es' & _).
  exists q, srow'. split; auto. split; [|now apply look_hasl]. intros B pr p (l' & Hb). apply S in Hb as (row2 & l2 & E2 & H2). cbn in H2. rewrite Es' in E2.
  injection E2 as <-. eauto.
Qed.

Lemma both : exists p0 sfl sfc, lr0 g start eof p0 (t_states tl) sfl clr_look (t_actions tl) /\ lr0 g start eof p0 (t_states tc) sfc clr_look (t_actions tc).
Proof.
  destruct (makes_terminals _ _ _ _ _ W Hg _ _ Hc Ho) as (t1 & Ht & _ & _ & Hf & _). pose proof (tmakes_facts _ _ _ _ _ W Hg _ Ht) as F.
  destruct (makes_with _ _ _ _ _ W Hg _ _ _ Ht Hl) as (fl & p & El). destruct (makes_with _ _ _ _ _ W Hg _ _ _ Ht Hc) as (fc & Ec).
  destruct (Wp0 _ _ _ _ _ W Hg) as (p0 & Hp0 & _). destruct (lalr_inv _ _ _ _ _ W Hg _ F _ _ _ El) as (_ & _ & _ & E2 & _).
  pose proof (lalr_lr0 _ _ _ _ _ W Hg _ F _ _ _ El _ Hp0) as L. rewrite <- E2 in L.
  exists p0, (sfk_lalr p), (sfk_plain (t_kernels tc)). split; auto. exact (clr_lr0 _ _ _ _ _ W Hg _ F _ _ Ec _ Hp0).
Qed.

Lemma above_shift m row x a n b : nth_error (t_actions tl) m = Some row -> bm_get x row = Some a -> inside (Shift n) a -> inside b a -> b <> Shift n ->
  exists q row' a' b' srow srow', nth_error (t_actions tc) q = Some row' /\ bm_get x row' = Some (Conflict a' b') /\
    nth_error (t_states tl) m = Some srow /\ nth_error (t_states tc) q = Some srow' /\
    forall B pr p, (exists l, In (mkPos B pr p l) srow) -> exists l, In (mkPos B pr p l) srow'.
Proof.
  intros Hr Ha Hs Hb Nb. destruct both as (p0 & sfl & sfc & L & C). pose proof (Wr _ _ _ _ _ Hg) as ER.
  assert (exists a, bm_get x row = Some a /\ inside b a) as Hex by eauto. apply (cell_dec _ _ _ _ _ _ _ _ _ _ _ L Hr) in Hex as (srow & pos & Es & Hi & Hd).
  assert (exists a, bm_get x row = Some a /\ inside (Shift n) a) as Hsh by eauto. apply (cell_dec _ _ _ _ _ _ _ _ _ _ _ L Hr) in Hsh as (srow1 & pos1 & Es1 & Hi1 & Hd1).
  rewrite Es in Es1. injection Es1 as <-. inversion Hd1 as [t n0 Ht1 Tt1 Hf1| | |]; subst t n0.
  assert (forall q srow' act, nth_error (t_states tc) q = Some srow' -> sup q srow -> (exists pos', In pos' srow' /\ dec g clr_look sfc start srow' pos' x act) ->
    (act = Acc \/ exists A pr, act = Reduce A pr) ->
    exists q row' a' b' srow0 srow', nth_error (t_actions tc) q = Some row' /\ bm_get x row' = Some (Conflict a' b') /\
    nth_error (t_states tl) m = Some srow0 /\ nth_error (t_states tc) q = Some srow' /\
    forall B pr p, (exists l, In (mkPos B pr p l) srow0) -> exists l, In (mkPos B pr p l) srow') as K.
  { intros q srow' act Es' S (pos' & Hi' & Hd') Hact. destruct (act_row _ _ _ _ _ _ _ _ _ C Es') as (row' & Er').
    destruct (proj2 (cell_dec _ _ _ _ _ _ _ _ _ x act C Er')) as (a1 & Ha1 & Hin1); [exists srow', pos'; auto|].
    pose proof (S _ Hi1) as Hh. destruct pos1 as [A1 pr1 k1 l1]. cbn [p_rule p_seq p_point] in Hh. pose proof Ht1 as Ht2. rewrite ptop_nth in Ht2.
    destruct (l_tr _ _ _ _ _ _ _ _ C _ _ _ _ _ Hh Ht2) as (n' & row3 & pos3 & E3 & Hi3 & Ht3 & Hf3). rewrite Es' in E3. injection E3 as <-.
    destruct (proj2 (cell_dec _ _ _ _ _ _ _ _ _ x (Shift n') C Er')) as (a2 & Ha2 & Hin2); [exists srow', pos3; split; auto; split; auto; now constructor|].
    rewrite Ha1 in Ha2. injection Ha2 as <-.
    destruct a1 as [n1|n1|A2 pr2| |c1 c2]; cbn in Hin1, Hin2; try (destruct Hact as [->|(A3 & pr3 & ->)]; congruence).
    exists q, row', c1, c2, srow, srow'. split; auto. split; auto. split; auto. split; auto. intros B pr p (l & Hl'). apply S in Hl' as (r & l' & E' & H'). rewrite Es' in E'.
    injection E' as <-. eauto. }
  inversion Hd as [t n0 Ht Tt Hf|t n0 Ht Tt Hf|t lk Ht Hlk Hin Hst|t lk Ht Hlk Hin Hst]; subst t.
  - subst b. congruence.
  - subst b. contradiction.
  - subst b. injection Hlk as <-. destruct (proj2 (lalr_above _ _ Es) _ _ Hi Hin) as (_ & q & S & (srow' & l' & lk' & Es' & Hi' & Hlk' & Hx')).
    apply (K q srow' (Reduce (p_rule pos) (p_seq pos)) Es' S); [|eauto]. exists (mkPos (p_rule pos) (p_seq pos) (p_point pos) l'). split; auto.
    apply (dec_reduce g clr_look sfc start srow' (mkPos (p_rule pos) (p_seq pos) (p_point pos) l') x lk'); auto.
  - subst b. injection Hlk as <-. destruct (proj2 (lalr_above _ _ Es) _ _ Hi Hin) as (_ & q & S & (srow' & l' & lk' & Es' & Hi' & Hlk' & Hx')).
    apply (K q srow' Acc Es' S); [|eauto]. exists (mkPos (p_rule pos) (p_seq pos) (p_point pos) l'). split; auto.
    apply (dec_acc g clr_look sfc start srow' (mkPos (p_rule pos) (p_seq pos) (p_point pos) l') x lk'); auto.
Qed.

Lemma above_reductions m row x a1 a2 b : conflicts (t_actions tc) = [] ->
  nth_error (t_actions tl) m = Some row -> bm_get x row = Some (Conflict a1 a2) -> inside b (Conflict a1 a2) -> b = Acc \/ exists A pr, b = Reduce A pr.
Proof.
  intros Hcl Hr Ha Hb. destruct both as (p0 & sfl & sfc & L & C).
  destruct (row_spec' _ _ _ _ _ _ _ _ L _ _ Hr) as (srow & Es & Hok).
  assert (exists c, inside c (Conflict a1 a2) /\ c <> b) as (c & Hic & Nc).
  { destruct (proj1 (row_ok_conflict _ _ _ _ _ _ x Hok)) as (p & q & d & e & Ip & Iq & Dd & De & N); eauto.
    assert (forall pos d, In pos srow -> dec g clr_look sfl start srow pos x d -> inside d (Conflict a1 a2)) as K.
    { intros pos d' Hi Hd. destruct (proj2 (cell_dec _ _ _ _ _ _ _ _ _ x d' L Hr)) as (a' & E' & Hi'); eauto. rewrite Ha in E'. injection E' as <-. auto. }
    destruct (eqb d b) eqn:Eb; [apply eqb_eq in Eb; subst d; exists e; split; [eauto|congruence]|]. exists d. split; [eauto|]. intros ->. now rewrite eqb_refl in Eb. }
  destruct b as [n|n|A pr| |b1 b2]; eauto; exfalso.
  - destruct (above_shift _ _ _ _ _ _ Hr Ha Hb Hic Nc) as (q & row' & a' & b' & _ & _ & Hr' & Hc' & _).
    assert (In (Conflict a' b') (conflicts (t_actions tc))) as Hin. { apply in_conflicts. split; auto. exists q, row', x. split; auto. now apply bm_get_in. }
    rewrite Hcl in Hin. contradiction.
  - destruct (proj1 (cell_dec _ _ _ _ _ _ _ _ _ x (Goto n) L Hr)) as (srow1 & pos & Es1 & Hi & Hd); eauto. rewrite Es in Es1. injection Es1 as <-.
    destruct (proj1 (cell_dec _ _ _ _ _ _ _ _ _ x c L Hr)) as (srow1 & pos' & Es1 & Hi' & Hd'); eauto. rewrite Es in Es1. injection Es1 as <-.
    inversion Hd as [|t n0 Ht Tt Hf| |]; subst.
    assert (forall lk, clr_look pos' = Val lk -> In x lk -> False) as K.
    { intros lk [= <-] Hx. destruct (proj2 (lalr_above _ _ Es) _ _ Hi' Hx) as (Tx & _). rewrite (Wr _ _ _ _ _ Hg) in Tt. contradiction. }
    inversion Hd' as [t n0 Ht' Tt' Hf'|t n0 Ht' Tt' Hf'|t lk Ht' Hlk Hin Hs|t lk Ht' Hlk Hin Hs]; subst; eauto; try contradiction. congruence.
  - apply inside_leaves in Hb. apply leaves_not_conflict in Hb. discriminate.
Qed.
End Above.

Lemma fewer_lalr {T} {OT : Ord T} (dbg1 dbg2 : bool) (start eof : T) (r1 r2 : rulemap T) (g1 g2 : grammar T) :
  wf_rules r1 -> wf_rules r2 -> grammar_new dbg1 start r1 eof = Val g1 -> grammar_new dbg2 start r2 eof = Val g2 ->
  term r1 eof -> term r2 eof -> fewer r1 r2 start ->
  forall tl tc t2, makes LALR dbg1 g1 tl -> makes CLR dbg1 g1 tc -> makes CLR dbg2 g2 t2 -> dbg1 = true \/ only_terminals tc -> conflicts (t_actions t2) = [] ->
  forall m row x a1 a2 b, nth_error (t_actions tl) m = Some row -> bm_get x row = Some (Conflict a1 a2) -> inside b (Conflict a1 a2) -> b = Acc \/ exists A pr, b = Reduce A pr.
Proof.
  intros W1 W2 G1 G2 E1 E2 Hf tl tc t2 Hl Hc H2 Ho Hcl m row x a1 a2 b.
  apply (above_reductions dbg1 start eof r1 g1 W1 G1 tl tc Hl Hc E1 Ho).
  exact (fewer_clean dbg1 dbg2 start eof r1 r2 g1 g2 W1 W2 G1 G2 E1 E2 Hf CLR tc t2 ltac:(discriminate) Hc H2 Ho Hcl).
Qed.
