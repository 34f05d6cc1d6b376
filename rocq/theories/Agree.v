(** Two tables for the same grammar follow the same paths; a table whose lookaheads are
    included in those of a conflict-free one is conflict-free (C27, C32). *)
From Coq Require Import List Bool Arith Lia.
From Verif Require Import BTree Model Base Spec SpecP GrammarP FirstFollow Closure Canon ActTab LR Sound CanonLR Merged Lalr LalrLR.
Import ListNotations.

Section Two.
Context {T : Type} {OT : Ord T}.
Variables (g : grammar T) (start eof : T) (p0 : production T).
Variables (sts1 sts2 : list (state T)) (sfk1 sfk2 : state T -> option nat).
Variables (lookf1 lookf2 : position T -> res (bset T)) (acts1 acts2 : acttable T).
Notation rules := (g_rules g).
Hypothesis L1 : lr0 g start eof p0 sts1 sfk1 lookf1 acts1.
Hypothesis L2 : lr0 g start eof p0 sts2 sfk2 lookf2 acts2.

Lemma same_items Xs : forall q1 qs1 q2 qs2 A pr p, path sts1 sfk1 (q1 :: qs1) Xs -> path sts2 sfk2 (q2 :: qs2) Xs ->
  has sts1 q1 A pr p -> has sts2 q2 A pr p.
Proof.
  induction Xs as [|X Xs IH]; intros q1 qs1 q2 qs2 A pr p P1 P2 H; apply (l_just _ _ _ _ _ _ _ _ L1) in H.
  - assert (q1 = 0 /\ q2 = 0) as [-> ->] by (inversion P1; inversion P2; auto). clear P1 P2.
    remember 0 as z eqn:Ez in H at 1. revert Ez. induction H as [|q A pr p H|q A pr p B i rhs H IHj Hn Hpr]; intros Ez.
    + apply (l_start _ _ _ _ _ _ _ _ L2).
    + rewrite Ez in H. apply (l_zero _ _ _ _ _ _ _ _ L1) in H. discriminate.
    + eapply (l_clo _ _ _ _ _ _ _ _ L2); eauto.
  - inversion P1 as [|q1' qs1' ? ? ? P1' T1]; inversion P2 as [|q2' qs2' ? ? ? P2' T2]; subst. clear P1 P2.
    remember q1 as z eqn:Ez in H at 1. revert Ez. induction H as [|q A pr p H|q A pr p B i rhs H IHj Hn Hpr]; intros Ez.
    + exfalso. subst q1. exact (tr_nonzero _ _ _ _ _ _ _ _ L1 _ _ _ T1 eq_refl).
    + subst q. apply (l_back _ _ _ _ _ _ _ _ L1 _ _ _ _ _ _ T1) in H as [H Hn].
      eapply (l_fwd _ _ _ _ _ _ _ _ L2); eauto.
    + eapply (l_clo _ _ _ _ _ _ _ _ L2); eauto.
Qed.
End Two.

Section Two'.
Context {T : Type} {OT : Ord T}.
Variables (g : grammar T) (start eof : T) (p0 : production T).
Variables (sts1 sts2 : list (state T)) (sfk1 sfk2 : state T -> option nat).
Variables (lookf1 lookf2 : position T -> res (bset T)) (acts1 acts2 : acttable T).
Hypothesis L1 : lr0 g start eof p0 sts1 sfk1 lookf1 acts1.
Hypothesis L2 : lr0 g start eof p0 sts2 sfk2 lookf2 acts2.

Lemma same_path qs2 Xs : path sts2 sfk2 qs2 Xs -> exists q1 qs1, path sts1 sfk1 (q1 :: qs1) Xs.
Proof.
  induction 1 as [|q qs X Xs n P (q1 & qs1 & P1) Ht]; [exists 0, []; constructor|].
  assert (exists A pr p, has sts2 q A pr p /\ nth_error (fst pr) p = Some X) as (A & pr & p & Hh & Hn).
  { destruct Ht as (row & [A pr p l] & H1 & H2 & H3 & _). rewrite ptop_nth in H3. exists A, pr, p. split; auto. exists row, l. auto. }
  assert (has sts1 q1 A pr p) as H1.
  { eapply (same_items _ _ _ _ _ _ _ _ _ _ _ _ L2 L1); eauto. }
  destruct (l_tr _ _ _ _ _ _ _ _ L1 _ _ _ _ _ H1 Hn) as (m & Hm). exists m, (q1 :: qs1). econstructor; eauto.
Qed.
End Two'.

Section Incl.
Context {T : Type} {OT : Ord T}.
Variables (g : grammar T) (start eof : T) (p0 : production T).
Variables (sts1 sts2 : list (state T)) (sfk1 sfk2 : state T -> option nat).
Variables (lookf1 lookf2 : position T -> res (bset T)) (acts1 acts2 : acttable T).
Notation rules := (g_rules g).
Hypothesis L1 : lr0 g start eof p0 sts1 sfk1 lookf1 acts1.
Hypothesis L2 : lr0 g start eof p0 sts2 sfk2 lookf2 acts2.
(** every state of the second table is reached *)
Hypothesis Hreach : forall q, q < length sts2 -> exists qs Xs, path sts2 sfk2 (q :: qs) Xs.
(** and its lookaheads are lookaheads of the first *)
Hypothesis Hincl : forall q1 q2 qs1 qs2 Xs A pr x, path sts1 sfk1 (q1 :: qs1) Xs -> path sts2 sfk2 (q2 :: qs2) Xs ->
  hasl sts2 lookf2 q2 A pr (length (fst pr)) x -> hasl sts1 lookf1 q1 A pr (length (fst pr)) x.
Hypothesis Hterm : forall q A pr x, hasl sts2 lookf2 q A pr (length (fst pr)) x -> term rules x.

Lemma clean_incl : conflicts acts1 = [] -> conflicts acts2 = [].
Proof.
  intros Hc. apply (no_conflict_clean _ _ _ _ _ _ _ _ L2). intros q2 x Hx.
  pose proof Hx as (a0 & b0 & E0). unfold entry in E0. destruct (nth_error acts2 q2) as [m|] eqn:Em; [|discriminate].
  apply (row_spec' _ _ _ _ _ _ _ _ L2) in Em as (row & Er & Hok).
  destruct (Hreach q2) as (qs2 & Xs & P2); [apply nth_error_Some; congruence|].
  destruct (same_path _ _ _ _ _ _ _ _ _ _ _ _ L1 L2 _ _ P2) as (q1 & qs1 & P1).
  assert (NC : ~ conflicted acts1 q1 x) by (apply clean_no_conflict; auto).
  assert (K1 : forall pos, In pos row -> ptop pos = Some x -> exists n, entry acts1 q1 x = Some (if is_terminal g x then Shift n else Goto n)).
  { intros [A pr p l] Hp Ht. rewrite ptop_nth in Ht.
    assert (has sts1 q1 A pr p) as Hh.
    { eapply (same_items _ _ _ _ _ _ _ _ _ _ _ _ L2 L1); eauto. exists row, l. auto. }
    destruct (l_tr _ _ _ _ _ _ _ _ L1 _ _ _ _ _ Hh Ht) as (n & Hn). exists n.
    destruct (has_entry _ _ _ _ _ _ _ _ L1 _ _ _ _ _ _ Hh Ht Hn); [auto|contradiction]. }
  assert (K2 : forall pos look, In pos row -> ptop pos = None -> lookf2 pos = Val look -> In x look ->
    term rules x /\ entry acts1 q1 x = Some (if eqb (p_rule pos) start then Acc else Reduce (p_rule pos) (p_seq pos))).
  { intros pos look Hp Ht Hl Hin. pose proof (done_point _ _ _ _ _ _ _ _ L2 _ _ _ Er Hp Ht) as Hd. destruct pos as [A pr p l].
    cbn [p_point p_seq p_rule] in *. subst p.
    assert (hasl sts2 lookf2 q2 A pr (length (fst pr)) x) as H2 by (exists row, l, look; auto).
    split; [eauto|]. pose proof (Hincl _ _ _ _ _ _ _ _ P1 P2 H2) as H1.
    destruct (hasl_entry _ _ _ _ _ _ _ _ L1 _ _ _ _ H1); [auto|contradiction]. }
  destruct (proj1 (row_ok_conflict _ _ _ _ _ _ x Hok)) as (p & p' & a & b & Hp & Hp' & Ha & Hb & Nab).
  { exists a0, b0. exact E0. }
  assert (Sh : forall pos act, In pos row -> dec g lookf2 sfk2 start row pos x act ->
     (ptop pos = Some x /\ exists n, sfk2 (sym_filter row x) = Some n /\ act = (if is_terminal g x then Shift n else Goto n)) \/
     (ptop pos = None /\ term rules x /\ entry acts1 q1 x = Some act /\ act = (if eqb (p_rule pos) start then Acc else Reduce (p_rule pos) (p_seq pos)))).
  { intros pos act Hi Hd. inversion Hd as [y n H1 H2 H3|y n H1 H2 H3|y look H1 H2 H3 H4|y look H1 H2 H3 H4]; subst y act.
    - left. split; auto. exists n. split; auto. apply is_terminal_term in H2. now rewrite H2.
    - left. split; auto. exists n. split; auto. apply is_terminal_nonterm in H2. now rewrite H2.
    - right. split; auto. destruct (K2 _ _ Hi H1 H2 H3) as [Hx1 Hx2]. destruct (eqb_spec (p_rule pos) start); [contradiction|auto].
    - right. split; auto. destruct (K2 _ _ Hi H1 H2 H3) as [Hx1 Hx2]. destruct (eqb_spec (p_rule pos) start); [auto|contradiction]. }
  assert (Mix : forall pos pos' act, In pos row -> In pos' row -> ptop pos = Some x -> ptop pos' = None -> term rules x ->
     entry acts1 q1 x = Some act -> act = (if eqb (p_rule pos') start then Acc else Reduce (p_rule pos') (p_seq pos')) -> False).
  { intros pos pos' act H1 H2 H3 H4 Hx5 H5 H6. destruct (K1 _ H1 H3) as (n & Hn). apply is_terminal_term in Hx5. rewrite Hx5 in Hn.
    destruct (eqb (p_rule pos') start); congruence. }
  destruct (Sh _ _ Hp Ha) as [(Ht & n & Hn & ->)|(Ht & Hx1 & He & Ea)]; destruct (Sh _ _ Hp' Hb) as [(Ht' & n' & Hn' & ->)|(Ht' & Hx1' & He' & Eb)].
  - apply Nab. assert (n = n') by congruence. now subst.
  - eapply (Mix p p'); eauto.
  - eapply (Mix p' p); eauto.
  - congruence.
Qed.
End Incl.

(** predicates preserved by closure and transitions hold of every position of a canonical collection *)
Section CanonV.
Context {T : Type} {OT : Ord T}.
Variables (g : grammar T) (lk : position T -> bset T) (ks : bmap (state T) nat) (sts : list (state T)).
Hypothesis HC : canon g lk ks sts.
Variable V : position T -> Prop.
Hypothesis Vb : V (g_basis g).
Hypothesis Vy : forall p q, V p -> yields g lk p q -> V q.
Hypothesis Va : forall p X, V p -> ptop p = Some X -> V (adv p).

Lemma clo_V seed q : (forall b, In b seed -> V b) -> clo g lk seed q -> V q.
Proof. intros Hs. induction 1; eauto. Qed.

Lemma canon_V : forall q row pos, nth_error sts q = Some row -> In pos row -> V pos.
Proof.
  induction q as [q IH] using (well_founded_induction lt_wf). intros row pos E Hin.
  destruct (canon_row g lk ks sts HC q row E) as (seed & _ & Hs & Hq). apply Hs in Hin. eapply clo_V; eauto. intros b Hb.
  destruct Hq as [[-> ->]|(_ & _ & _ & j & row' & X & Hj & Ej & ->)].
  - destruct Hb as [<-|[]]. exact Vb.
  - apply sym_filter_in in Hb as (b' & Hb' & Ht & ->). eauto.
Qed.

Lemma canon_reach : forall q, q < length sts -> exists qs Xs, path sts (sfk_plain ks) (q :: qs) Xs.
Proof.
  induction q as [q IH] using (well_founded_induction lt_wf). intros Hq.
  destruct (nth_error sts q) as [row|] eqn:E; [|apply nth_error_None in E; lia].
  destruct (canon_row g lk ks sts HC q row E) as (seed & _ & Hs & [[-> _]|(_ & N & Hk & j & row' & X & Hj & Ej & ->)]).
  - exists [], []. constructor.
  - destruct (IH j Hj) as (qs & Xs & P); [lia|]. exists (j :: qs), (X :: Xs). econstructor; eauto.
    destruct (sym_filter row' X) as [|b l] eqn:Ef; [congruence|]. 
    assert (In b (sym_filter row' X)) as Hb by (rewrite Ef; now left). apply sym_filter_in in Hb as (pos & H1 & H2 & _).
    exists row', pos. unfold sfk_plain. rewrite Ef. auto.
Qed.
End CanonV.

Section Gen.
Context {T : Type} {OT : Ord T}.
Variables (dbg : bool) (start eof : T) (rules : rulemap T) (g : grammar T).
Hypothesis W : wf_rules rules.
Hypothesis Hg : grammar_new dbg start rules eof = Val g.
Variable t : tabler T.
Hypothesis F : tabler_facts dbg start eof rules g t.
Hypothesis Heof : term rules eof.
(** FIRST holds only terminals (checked by the code's debug_assert) *)
Hypothesis Hfirst : forall A x, tin (t_first t) A x -> term rules x.

Let Er : g_rules g = rules.
Proof. exact (proj1 (grammar_new_inv _ _ _ _ _ Hg)). Qed.

Variables (fs : nat) (ts : tabler T).
Hypothesis Hs : slr_with_table dbg fs t = Val ts.
Hypothesis Hclean : conflicts (t_actions ts) = [].

Lemma clr_look_Q fc tc Q q A pr k x : clr_with_table dbg fc t = Val tc -> Qok start eof rules t Q ->
  hasl (t_states tc) clr_look q A pr k x -> Q A x.
Proof.
  intros Hc HQ Hh. apply clr_hasl in Hh as (row & l & E & Hin & Hx).
  destruct (clr_inv _ _ _ _ _ W Hg _ F _ _ Hc) as (_ & _ & _ & HC & _).
  assert (Vq g Q (mkPos A pr k l)) as [_ HV].
  { eapply (canon_V _ _ _ _ HC (Vq g Q)); eauto.
    - apply (Vq_b dbg start eof rules g W Hg t Q HQ).
    - apply (Vq_y dbg start eof rules g W Hg t F Q HQ).
    - apply Vq_a. }
  exact (HV x Hx).
Qed.

Lemma slr_clean_clr fc tc : clr_with_table dbg fc t = Val tc -> conflicts (t_actions tc) = [].
Proof.
  intros Hc. destruct (grammar_new_inv _ _ _ _ _ Hg) as (_ & r & p0 & ps & _ & _ & Hp0 & _).
  pose proof (slr_lr0 _ _ _ _ _ W Hg _ F _ _ Hs _ Hp0) as L1. pose proof (clr_lr0 _ _ _ _ _ W Hg _ F _ _ Hc _ Hp0) as L2.
  destruct (clr_inv _ _ _ _ _ W Hg _ F _ _ Hc) as (_ & _ & _ & HC & _).
  refine (clean_incl _ _ _ _ _ _ _ _ _ _ _ _ L1 L2 (canon_reach _ _ _ _ HC) _ _ Hclean).
  - intros q1 q2 qs1 qs2 Xs A pr x P1 P2 H2. apply slr_hasl. split.
    + eapply (same_items _ _ _ _ _ _ _ _ _ _ _ _ L2 L1); eauto using hasl_has.
    + eapply (clr_look_Q fc tc _ _ _ _ _ _ Hc (Qfollow _ _ _ _ _ _ F Heof)); eauto.
      eapply (clr_look_Q fc tc _ _ _ _ _ _ Hc (Qterm _ _ _ _ _ _ F Heof Hfirst)); eauto.
  - intros q A pr x H2. rewrite Er. eapply (clr_look_Q fc tc _ _ _ _ _ _ Hc (Qterm _ _ _ _ _ _ F Heof Hfirst)); eauto.
Qed.

Lemma lalr_reach tl fl p : lalr_with_table dbg fl t = Val (tl, p) ->
  forall q, q < length (l_states p) -> exists qs Xs, path (l_states p) (sfk_lalr p) (q :: qs) Xs.
Proof.
  intros Hl. induction q as [q IH] using (well_founded_induction lt_wf). intros Hq.
  destruct (Nat.eq_dec q 0) as [->|N]; [exists [], []; constructor|].
  destruct (lalr_pred _ _ _ _ _ W Hg _ F _ _ _ Hl q) as (j & X & Hj & Ht); [lia|].
  destruct (IH j Hj) as (qs & Xs & P); [lia|]. exists (j :: qs), (X :: Xs). econstructor; eauto.
Qed.

Lemma slr_clean_lalr tl fl p : lalr_with_table dbg fl t = Val (tl, p) -> conflicts (t_actions tl) = [].
Proof.
  intros Hl. destruct (grammar_new_inv _ _ _ _ _ Hg) as (_ & r & p0 & ps & _ & _ & Hp0 & _).
  pose proof (slr_lr0 _ _ _ _ _ W Hg _ F _ _ Hs _ Hp0) as L1. pose proof (lalr_lr0 _ _ _ _ _ W Hg _ F _ _ _ Hl _ Hp0) as L2.
  refine (clean_incl _ _ _ _ _ _ _ _ _ _ _ _ L1 L2 (lalr_reach _ _ _ Hl) _ _ Hclean).
  - intros q1 q2 qs1 qs2 Xs A pr x P1 P2 H2. apply slr_hasl. split.
    + eapply (same_items _ _ _ _ _ _ _ _ _ _ _ _ L2 L1); eauto using hasl_has.
    + eapply (lalr_look _ _ _ _ _ W Hg _ F _ _ _ Hl _ _ _ _ _ _ (Qfollow _ _ _ _ _ _ F Heof)); eauto.
      eapply (lalr_look _ _ _ _ _ W Hg _ F _ _ _ Hl _ _ _ _ _ _ (Qterm _ _ _ _ _ _ F Heof Hfirst)); eauto.
  - intros q A pr x H2. rewrite Er. eapply (lalr_look _ _ _ _ _ W Hg _ F _ _ _ Hl _ _ _ _ _ _ (Qterm _ _ _ _ _ _ F Heof Hfirst)); eauto.
Qed.
End Gen.
