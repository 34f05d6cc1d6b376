(** Lalr's table is Clr's folded along the map of C117 (C136). *)
From Coq Require Import List Bool Arith Lia.
From Verif Require Import BTree Model Base Spec SpecP Interface GrammarP FirstFollow Closure Canon ActTab LR Sound CanonLR Prefix Merged Lalr LalrLR Agree Wrap Final Mono Export LR1Spec ValidSpec StatesSpec Cores Handle HandleF Valid Quotient ClrStates AgreeLalr Pass FoldSpec.
Import ListNotations.

Section Fold.
Context {T : Type} {OT : Ord T}.
Variables (dbg : bool) (start eof : T) (rules : rulemap T) (g : grammar T).
Hypothesis W : wf_rules rules.
Hypothesis Hg : grammar_new dbg start rules eof = Val g.
Variables (tl tc : tabler T).
Hypothesis Hl : makes LALR dbg g tl.
Hypothesis Hc : makes CLR dbg g tc.
Hypothesis He : term rules eof.
Hypothesis Hs0 : dbg = true \/ single_start rules start.
Hypothesis Ho : dbg = true \/ only_terminals tc.

Lemma cell_dec p0 sfk lookf t q row x b : lr0 g start eof p0 (t_states t) sfk lookf (t_actions t) -> nth_error (t_actions t) q = Some row ->
  ((exists a, bm_get x row = Some a /\ inside b a) <-> exists srow pos, nth_error (t_states t) q = Some srow /\ In pos srow /\ dec g lookf sfk start srow pos x b).
Proof.
  intros L Hr. destruct (row_spec' _ _ _ _ _ _ _ _ L _ _ Hr) as (srow & Es & _ & Hok & _). split.
  - intros (a & Ha & Hi). apply inside_leaves in Hi. destruct (proj1 (Hok x b)) as (pos & Hp & Hd); eauto.
  - intros (srow' & pos & Es' & Hp & Hd). rewrite Es in Es'. injection Es' as <-. destruct (proj2 (Hok x b)) as (a & Ha & Hi); eauto.
    exists a. split; auto. now apply inside_leaves.
Qed.

Lemma act_row p0 sfk lookf t q srow : lr0 g start eof p0 (t_states t) sfk lookf (t_actions t) -> nth_error (t_states t) q = Some srow ->
  exists row, nth_error (t_actions t) q = Some row.
Proof. intros L E. destruct (row_spec _ _ _ _ _ _ _ _ L _ _ E) as (m & Em & _). eauto. Qed.

(** the parts of both tables that the proofs need *)
Record parts (h : nat -> nat) (p0 : production T) (sfl sfc : state T -> option nat) : Prop := {
  pa_l : lr0 g start eof p0 (t_states tl) sfl clr_look (t_actions tl);
  pa_c : lr0 g start eof p0 (t_states tc) sfc clr_look (t_actions tc);
  pa_cc : lr1c g start eof p0 (t_states tc) sfc clr_look;
  pa_cs : lr1s g start eof p0 (t_states tc) sfc clr_look;
  pa_ct : forall q A pr p x, hasl (t_states tc) clr_look q A pr p x -> term (g_rules g) x;
  pa_hand : hands_on tl -> lr1c g start eof p0 (t_states tl) sfl clr_look;
  pa_reach : forall q, q < length (t_states tc) -> exists qs Xs, path (t_states tc) sfc (q :: qs) Xs;
  pa_one : forall i rhs, prod_at (g_rules g) start i rhs -> (rhs, i) = p0;
  pa_zero : h 0 = 0;
  pa_core : forall q row, nth_error (t_states tc) q = Some row -> exists row', nth_error (t_states tl) (h q) = Some row' /\ same_core row row';
  pa_onto : forall m, m < length (t_states tl) -> exists q, q < length (t_states tc) /\ h q = m;
  pa_move : forall q X n, moves tc q X n -> moves tl (h q) X (h n);
  pa_back : forall q X m, q < length (t_states tc) -> moves tl (h q) X m -> exists n, moves tc q X n /\ h n = m
}.

Lemma the_parts : exists h p0 sfl sfc, parts h p0 sfl sfc.
Proof.
  assert (single_start rules start) as Hs by (destruct Hs0; eauto using debug_single). pose proof (Wr _ _ _ _ _ Hg) as ER.
  destruct (makes_terminals _ _ _ _ _ W Hg _ _ Hc Ho) as (t1 & Ht & _ & _ & Hf & _). pose proof (tmakes_facts _ _ _ _ _ W Hg _ Ht) as F.
  destruct (makes_with _ _ _ _ _ W Hg _ _ _ Ht Hl) as (fl & p & El). destruct (makes_with _ _ _ _ _ W Hg _ _ _ Ht Hc) as (fc & Ec).
  destruct (Wp0 _ _ _ _ _ W Hg) as (p0 & Hp0 & _).
  destruct (lalr_inv _ _ _ _ _ W Hg _ F _ _ _ El) as (_ & _ & _ & E2 & _).
  pose proof (lalr_lr0 _ _ _ _ _ W Hg _ F _ _ _ El _ Hp0) as L. pose proof L as L'. rewrite <- E2 in L'.
  destruct (lalr_quotient _ _ _ _ _ W Hg _ _ _ Hc Hl) as (h & H0 & H1 & H2 & H3 & H4 & _).
  exists h, p0, (sfk_lalr p), (sfk_plain (t_kernels tc)). constructor; auto.
  - exact (clr_lr0 _ _ _ _ _ W Hg _ F _ _ Ec _ Hp0).
  - exact (clr_lr1c _ _ _ _ _ W Hg _ F _ _ Ec _ Hp0).
  - exact (clr_lr1s _ _ _ _ _ W Hg _ F _ _ Ec _ Hp0).
  - intros q A pr k x H. rewrite ER. exact (clr_look_Q _ _ _ _ _ W Hg _ F _ _ _ _ _ _ _ _ Ec (Qterm _ _ _ _ _ _ F He Hf) H).
  - intros Hh. rewrite E2. eapply lalr_lr1c; eauto. intros q1 X n A1 [rhs k1] k x1 Hx Hlk Hn. rewrite <- E2 in Hx, Hlk |- *. cbn [fst] in Hn.
    pose proof (nth_error_split _ _ Hn) as (u1 & v1 & -> & <-).
    assert (item_look tl n A1 k1 (u1 ++ [X]) v1 x1) as H.
    { eapply Hh; [apply look_hasl; exact Hlk|]. eapply tr_moves; eauto. }
    apply look_hasl in H. now rewrite <- app_assoc, app_length, Nat.add_1_r in H.
  - exact (clr_reach _ _ _ _ _ W Hg _ _ _ F Ec).
  - exact (HandleF.one_start _ _ _ _ _ W Hg _ Hp0 Hs).
Qed.

Section With.
Variables (h : nat -> nat) (p0 : production T) (sfl sfc : state T -> option nat).
Hypothesis P : parts h p0 sfl sfc.

Lemma core_has q A pr p : q < length (t_states tc) -> (has (t_states tc) q A pr p <-> has (t_states tl) (h q) A pr p).
Proof.
  intros Hq. apply nth_error_Some in Hq. destruct (nth_error (t_states tc) q) as [row|] eqn:E; [|congruence].
  destruct (pa_core _ _ _ _ P _ _ E) as (row' & E' & S). split.
  - intros (r & l & Er & Hi). rewrite E in Er. injection Er as <-. destruct (proj1 (S A pr p)) as (l' & Hi'); eauto. exists row', l'. auto.
  - intros (r & l & Er & Hi). rewrite E' in Er. injection Er as <-. destruct (proj2 (S A pr p)) as (l' & Hi'); eauto. exists row, l'. auto.
Qed.

(** a lookahead handed out in a state of Lalr is one in a state of Clr put into it *)
Lemma passed_clr q A i u v x : passed rules start eof tl q A i u v x ->
  term rules x /\ exists q', q' < length (t_states tc) /\ h q' = q /\ hasl (t_states tc) clr_look q' A (u ++ v, i) (length u) x.
Proof.
  pose proof (Wr _ _ _ _ _ Hg) as ER.
  induction 1 as [i rhs H|q A i u X v x n H IH Hmv|q A i u B Y v j rhs x H Hpr Hfs|q A i u B j rhs x H IH Hpr].
  - split; auto. exists 0. pose proof (c_start _ _ _ _ _ _ _ (pa_cc _ _ _ _ P)) as Hz. split; [apply hasl_has in Hz; eapply has_row; eauto|].
    split; [apply (pa_zero _ _ _ _ P)|]. apply item_has, (l_valid _ _ _ _ _ _ _ _ (pa_l _ _ _ _ P)) in H as [H _]. cbn [fst snd app length] in *.
    now rewrite (pa_one _ _ _ _ P _ _ H).
  - destruct IH as (Tx & q' & Hq & <- & Hh). split; auto. destruct (pa_back _ _ _ _ P _ _ _ Hq Hmv) as (n' & Hn & <-).
    pose proof (moves_tr _ _ _ _ _ _ _ _ _ _ (pa_c _ _ _ _ P) Hn) as Ht. exists n'. split; [exact (l_len _ _ _ _ _ _ _ _ (pa_c _ _ _ _ P) _ _ _ Ht)|]. split; auto.
    rewrite <- app_assoc, app_length, Nat.add_1_r. eapply (c_fwd _ _ _ _ _ _ _ (pa_cc _ _ _ _ P)); eauto. cbn [fst]. now rewrite nth_error_app2, Nat.sub_diag by auto.
  - split; [apply Hfs|]. apply item_has in H. destruct (pa_onto _ _ _ _ P q) as (q' & Hq & <-). { eapply has_row; eauto. }
    exists q'. split; auto. split; auto. apply core_has in H; auto. rewrite <- ER in Hpr, Hfs.
    eapply (c_first _ _ _ _ _ _ _ (pa_cc _ _ _ _ P)); eauto; cbn [fst]; [rewrite nth_error_app2, Nat.sub_diag by auto; reflexivity|].
    rewrite nth_error_app2 by lia. now replace (S (length u) - length u) with 1 by lia.
  - destruct IH as (Tx & q' & Hq & <- & Hh). split; auto. exists q'. split; auto. split; auto. rewrite <- ER in Hpr, Tx.
    refine (c_last _ _ _ _ _ _ _ (pa_cc _ _ _ _ P) q' A (u ++ [B], i) (length u) B j rhs x Tx Hh _ _ Hpr); cbn [fst].
    + now rewrite nth_error_app2, Nat.sub_diag by auto.
    + apply nth_error_None. rewrite app_length. simpl. lia.
Qed.

Lemma path_h qs Xs : path (t_states tc) sfc qs Xs -> path (t_states tl) sfl (map h qs) Xs.
Proof.
  induction 1 as [|q qs X Xs n Hp IH Ht]; cbn [map].
  - rewrite (pa_zero _ _ _ _ P). constructor.
  - constructor; auto. eapply moves_tr; [apply (pa_l _ _ _ _ P)|]. apply (pa_move _ _ _ _ P). eapply tr_moves; [apply (pa_c _ _ _ _ P)|exact Ht].
Qed.

Lemma clr_passed q A pr p x : hands_on tl -> hasl (t_states tc) clr_look q A pr p x -> hasl (t_states tl) clr_look (h q) A pr p x.
Proof.
  intros Hh H. destruct (pa_reach _ _ _ _ P q) as (qs & Xs & Hp). { apply hasl_has in H. eapply has_row; eauto. }
  exact (looks_incl _ _ _ _ _ _ _ _ _ _ _ _ (pa_l _ _ _ _ P) (pa_c _ _ _ _ P) (pa_hand _ _ _ _ P Hh) (pa_cs _ _ _ _ P) _ _ _ _ _ _ _ _ _
    (pa_ct _ _ _ _ P _ _ _ _ _ H) (path_h _ _ Hp) Hp H).
Qed.

Lemma dec_move t sfk q srow pos x n : lr0 g start eof p0 (t_states t) sfk clr_look (t_actions t) -> nth_error (t_states t) q = Some srow -> In pos srow -> ptop pos = Some x ->
  sfk (sym_filter srow x) = Some n -> moves t q x n.
Proof. intros L E Hi Hp Hf. eapply tr_moves; eauto. exists srow, pos. auto. Qed.

Lemma move_dec t sfk q x n : lr0 g start eof p0 (t_states t) sfk clr_look (t_actions t) -> moves t q x n ->
  exists srow pos, nth_error (t_states t) q = Some srow /\ In pos srow /\ ptop pos = Some x /\ sfk (sym_filter srow x) = Some n.
Proof. intros L H. eapply moves_tr in H; eauto. Qed.

(** from Lalr's cell to Clr's *)
Lemma fold_out m row x b : grounded rules start eof tl -> nth_error (t_actions tl) m = Some row -> (exists a, bm_get x row = Some a /\ inside b a) ->
  exists q row' a' b', h q = m /\ nth_error (t_actions tc) q = Some row' /\ bm_get x row' = Some a' /\ inside b' a' /\ b = along h b'.
Proof.
  intros Hgr Hr Hx. pose proof (pa_l _ _ _ _ P) as L. pose proof (pa_c _ _ _ _ P) as C.
  apply (cell_dec _ _ _ _ _ _ _ _ L Hr) in Hx as (srow & pos & Es & Hi & Hd).
  assert (forall q b', q < length (t_states tc) -> h q = m -> b = along h b' ->
    (exists srow pos, nth_error (t_states tc) q = Some srow /\ In pos srow /\ dec g clr_look sfc start srow pos x b') ->
    exists q row' a' b', h q = m /\ nth_error (t_actions tc) q = Some row' /\ bm_get x row' = Some a' /\ inside b' a' /\ b = along h b') as K.
  { intros q b' Hq Hm Hb Hex. pose proof Hex as (srow' & _ & Es' & _). destruct (act_row _ _ _ _ _ _ C Es') as (row' & Er').
    apply (cell_dec _ _ _ _ _ _ _ _ C Er') in Hex as (a' & Ha & Hin). exists q, row', a', b'. auto. }
  assert (m < length (t_states tl)) as Hm by (apply nth_error_Some; congruence).
  inversion Hd as [t n Ht Tt Hn|t n Ht Tt Hn|t lk Ht Hlk Hin Hs|t lk Ht Hlk Hin Hs]; subst t; subst b.
  1, 2: destruct (pa_onto _ _ _ _ P m Hm) as (q & Hq & <-); pose proof (dec_move _ _ _ _ _ _ _ L Es Hi Ht Hn) as Hmv;
    destruct (pa_back _ _ _ _ P _ _ _ Hq Hmv) as (n' & Hn' & <-); apply (move_dec _ _ _ _ _ C) in Hn' as (srow' & pos' & Es' & Hi' & Ht' & Hf').
  - apply (K q (Shift n')); auto. exists srow', pos'. split; auto. split; auto. now constructor.
  - apply (K q (Goto n')); auto. exists srow', pos'. split; auto. split; auto. now constructor.
  - destruct pos as [A pr p l]. cbn [p_rule p_seq] in *. rewrite ptop_nth in Ht. apply nth_error_None in Ht.
    assert (has (t_states tl) m A pr p) as Hh by (exists srow, l; auto). destruct (l_valid _ _ _ _ _ _ _ _ L _ _ _ _ Hh) as [_ Hle]. assert (p = length (fst pr)) as -> by lia.
    assert (item_look tl m A (snd pr) (fst pr) [] x) as Hlook.
    { exists srow, (mkPos A pr (length (fst pr)) l). cbn. rewrite app_nil_r. injection Hlk as <-. destruct pr. auto 8. }
    apply Hgr, passed_clr in Hlook as (_ & q & Hq & <- & Hc'). rewrite app_nil_r, <- surjective_pairing in Hc'. destruct Hc' as (srow' & l' & lk' & Es' & Hi' & Hlk' & Hx').
    apply (K q (Reduce A pr)); auto. exists srow', (mkPos A pr (length (fst pr)) l'). split; auto. split; auto.
    apply (dec_reduce g clr_look sfc start srow' (mkPos A pr (length (fst pr)) l') x lk'); auto. rewrite ptop_nth. now apply nth_error_None.
  - destruct pos as [A pr p l]. cbn [p_rule p_seq] in *. rewrite ptop_nth in Ht. apply nth_error_None in Ht.
    assert (has (t_states tl) m A pr p) as Hh by (exists srow, l; auto). destruct (l_valid _ _ _ _ _ _ _ _ L _ _ _ _ Hh) as [_ Hle]. assert (p = length (fst pr)) as -> by lia.
    assert (item_look tl m A (snd pr) (fst pr) [] x) as Hlook.
    { exists srow, (mkPos A pr (length (fst pr)) l). cbn. rewrite app_nil_r. injection Hlk as <-. destruct pr. auto 8. }
    apply Hgr, passed_clr in Hlook as (_ & q & Hq & <- & Hc'). rewrite app_nil_r, <- surjective_pairing in Hc'. destruct Hc' as (srow' & l' & lk' & Es' & Hi' & Hlk' & Hx').
    apply (K q Acc); auto. exists srow', (mkPos A pr (length (fst pr)) l'). split; auto. split; auto.
    apply (dec_acc g clr_look sfc start srow' (mkPos A pr (length (fst pr)) l') x lk'); auto. rewrite ptop_nth. now apply nth_error_None.
Qed.

(** from Clr's cell to Lalr's *)
Lemma fold_in q row row' x a' b' : hands_on tl -> nth_error (t_actions tl) (h q) = Some row -> nth_error (t_actions tc) q = Some row' ->
  bm_get x row' = Some a' -> inside b' a' -> exists a, bm_get x row = Some a /\ inside (along h b') a.
Proof.
  intros Hh Hr Hr' Ha Hb. pose proof (pa_l _ _ _ _ P) as L. pose proof (pa_c _ _ _ _ P) as C.
  apply (cell_dec _ _ _ _ _ _ _ _ L Hr). assert (exists a, bm_get x row' = Some a /\ inside b' a) as Hex by eauto.
  apply (cell_dec _ _ _ _ _ _ _ _ C Hr') in Hex as (srow & pos & Es & Hi & Hd).
  inversion Hd as [t n Ht Tt Hn|t n Ht Tt Hn|t lk Ht Hlk Hin Hs|t lk Ht Hlk Hin Hs]; subst t; subst b'; cbn [along].
  1, 2: pose proof (dec_move _ _ _ _ _ _ _ C Es Hi Ht Hn) as Hmv; apply (pa_move _ _ _ _ P) in Hmv; apply (move_dec _ _ _ _ _ L) in Hmv as (srow' & pos' & Es' & Hi' & Ht' & Hf');
    exists srow', pos'; split; auto; split; auto; now constructor.
  - destruct pos as [A pr p l]. cbn [p_rule p_seq] in *.
    assert (hasl (t_states tc) clr_look q A pr p x) as Hc' by (exists srow, l, lk; auto). apply (clr_passed _ _ _ _ _ Hh) in Hc' as (srow' & l' & lk' & Es' & Hi' & Hlk' & Hx').
    exists srow', (mkPos A pr p l'). split; auto. split; auto. apply (dec_reduce g clr_look sfl start srow' (mkPos A pr p l') x lk'); auto.
  - destruct pos as [A pr p l]. cbn [p_rule p_seq] in *.
    assert (hasl (t_states tc) clr_look q A pr p x) as Hc' by (exists srow, l, lk; auto). apply (clr_passed _ _ _ _ _ Hh) in Hc' as (srow' & l' & lk' & Es' & Hi' & Hlk' & Hx').
    exists srow', (mkPos A pr p l'). split; auto. split; auto. apply (dec_acc g clr_look sfl start srow' (mkPos A pr p l') x lk'); auto.
Qed.
End With.

Lemma lalr_folded : hands_on tl -> grounded rules start eof tl -> exists h, folded h tc tl.
Proof.
  intros Hh Hgr. destruct the_parts as (h & p0 & sfl & sfc & P). exists h. constructor.
  - apply (pa_zero _ _ _ _ P).
  - apply (pa_core _ _ _ _ P).
  - apply (pa_onto _ _ _ _ P).
  - intros m row x b Hr. split; [eapply fold_out; eauto|]. intros (q & row' & a' & b' & <- & Hr' & Ha & Hb & ->). eapply fold_in; eauto.
Qed.

(** where a shift meets something else, it does so in a state of Clr with the same items *)
Lemma lalr_shift m row x a n b : grounded rules start eof tl -> nth_error (t_actions tl) m = Some row -> bm_get x row = Some a -> inside (Shift n) a -> inside b a -> b <> Shift n ->
  exists q row' a' b' srow srow', nth_error (t_actions tc) q = Some row' /\ bm_get x row' = Some (Conflict a' b') /\
    nth_error (t_states tl) m = Some srow /\ nth_error (t_states tc) q = Some srow' /\ same_core srow srow'.
Proof.
  intros Hgr Hr Ha Hi Hb Hn. destruct the_parts as (h & p0 & sfl & sfc & P). pose proof (pa_l _ _ _ _ P) as L. pose proof (pa_c _ _ _ _ P) as C.
  assert (exists a, bm_get x row = Some a /\ inside b a) as Hex by eauto.
  destruct (fold_out _ _ _ _ P _ _ _ _ Hgr Hr Hex) as (q & row' & a' & b' & <- & Hr' & Ha' & Hb' & Eb).
  assert (exists a, bm_get x row = Some a /\ inside (Shift n) a) as Hsh by eauto. apply (cell_dec _ _ _ _ _ _ _ _ L Hr) in Hsh as (srow & pos & Es & Hp & Hd).
  inversion Hd as [t n0 Ht Tt Hf|t n0 Ht Tt Hf|t lk Ht Hlk Hin Hs|t lk Ht Hlk Hin Hs]; subst.
  destruct (row_spec' _ _ _ _ _ _ _ _ C _ _ Hr') as (srow' & Es' & _). assert (q < length (t_states tc)) as Hq by (apply nth_error_Some; congruence).
  pose proof (dec_move _ _ _ _ _ _ _ _ L Es Hp Ht Hf) as Hmv. destruct (pa_back _ _ _ _ P _ _ _ Hq Hmv) as (n' & Hn' & <-).
  pose proof (move_dec _ _ _ _ _ _ C Hn') as (srow2 & pos' & Es2 & Hi' & Ht' & Hf'). rewrite Es' in Es2. injection Es2 as <-.
  destruct (proj2 (cell_dec _ _ _ _ _ _ x (Shift n') C Hr')) as (a2 & Ha2 & Hin2). { exists srow', pos'. split; auto. split; auto. now constructor. }
  rewrite Ha' in Ha2. injection Ha2 as <-. assert (b' <> Shift n') as Nb by (intros ->; now apply Hn).
  destruct (pa_core _ _ _ _ P _ _ Es') as (srow3 & Es3 & S). rewrite Es in Es3. injection Es3 as <-.
  destruct a' as [| | | |a1 a2]; cbn in Hb', Hin2; try congruence. exists q, row', a1, a2, srow, srow'. repeat (split; auto); apply S.
Qed.

Lemma lalr_reductions m row x a1 a2 b : grounded rules start eof tl -> conflicts (t_actions tc) = [] ->
  nth_error (t_actions tl) m = Some row -> bm_get x row = Some (Conflict a1 a2) -> inside b (Conflict a1 a2) -> b = Acc \/ exists A pr, b = Reduce A pr.
Proof.
  intros Hgr Hcl Hr Ha Hb. destruct the_parts as (h & p0 & sfl & sfc & P). pose proof (pa_l _ _ _ _ P) as L. pose proof (pa_c _ _ _ _ P) as C.
  destruct (row_spec' _ _ _ _ _ _ _ _ L _ _ Hr) as (srow & Es & Hok).
  assert (exists c, inside c (Conflict a1 a2) /\ c <> b) as (c & Hic & Nc).
  { destruct (proj1 (row_ok_conflict _ _ _ _ _ _ x Hok)) as (p & q & d & e & Ip & Iq & Dd & De & N); eauto.
    assert (forall pos d, In pos srow -> dec g clr_look sfl start srow pos x d -> inside d (Conflict a1 a2)) as K.
    { intros pos d' Hi Hd. destruct (proj2 (cell_dec _ _ _ _ _ _ x d' L Hr)) as (a' & E' & Hi'); eauto. rewrite Ha in E'. injection E' as <-. auto. }
    destruct (eqb d b) eqn:Eb; [apply eqb_eq in Eb; subst d; exists e; split; [eauto|congruence]|]. exists d. split; [eauto|]. intros ->. now rewrite eqb_refl in Eb. }
  destruct b as [n|n|A pr| |b1 b2]; eauto; exfalso.
  - destruct (lalr_shift _ _ _ _ _ _ Hgr Hr Ha Hb Hic Nc) as (q & row' & a' & b' & _ & _ & Hr' & Hc' & _).
    assert (In (Conflict a' b') (conflicts (t_actions tc))) as Hin. { apply in_conflicts. split; auto. exists q, row', x. split; auto. now apply bm_get_in. }
    rewrite Hcl in Hin. contradiction.
  - destruct (proj1 (cell_dec _ _ _ _ _ _ x (Goto n) L Hr)) as (srow1 & pos & Es1 & Hi & Hd); eauto. rewrite Es in Es1. injection Es1 as <-.
    destruct (proj1 (cell_dec _ _ _ _ _ _ x c L Hr)) as (srow1 & pos' & Es1 & Hi' & Hd'); eauto. rewrite Es in Es1. injection Es1 as <-.
    inversion Hd as [|t n0 Ht Tt Hf| |]; subst.
    assert (forall A pr p l lk, pos' = mkPos A pr p l -> clr_look pos' = Val lk -> In x lk -> False) as K.
    { intros A pr p l lk -> Hlk Hx. injection Hlk as <-. assert (has (t_states tl) m A pr p) as Hh by (exists srow, l; auto).
      destruct (l_valid _ _ _ _ _ _ _ _ L _ _ _ _ Hh) as [_ Hle].
      assert (item_look tl m A (snd pr) (firstn p (fst pr)) (skipn p (fst pr)) x) as Hlook.
      { exists srow, (mkPos A pr p l). cbn. rewrite firstn_skipn, firstn_length_le by auto. destruct pr. auto 8. }
      apply Hgr, (passed_clr _ _ _ _ P) in Hlook as [Tx _]. rewrite (Wr _ _ _ _ _ Hg) in Tt. contradiction. }
    destruct pos' as [A pr p l]. inversion Hd' as [t n0 Ht' Tt' Hf'|t n0 Ht' Tt' Hf'|t lk Ht' Hlk Hin Hs|t lk Ht' Hlk Hin Hs]; subst; eauto; try contradiction. congruence.
  - apply inside_leaves in Hb. apply leaves_not_conflict in Hb. discriminate.
Qed.
End Fold.
