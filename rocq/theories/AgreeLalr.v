(** An Lalr table that carries its lookaheads holds all the lookaheads of the Clr table, so
    that if it has no conflicts the Clr table has none either (C28). *)
From Coq Require Import List Bool Arith Lia.
From Verif Require Import BTree Model Base Spec SpecP GrammarP FirstFollow Closure Canon ActTab LR Sound CanonLR Merged Lalr LalrLR Agree Interface Wrap Reduce Total Final Mono Export.
Import ListNotations.

Section Sub.
Context {T : Type} {OT : Ord T}.
Variables (g : grammar T) (start eof : T) (p0 : production T).
Variables (sts1 sts2 : list (state T)) (sfk1 sfk2 : state T -> option nat).
Variables (lookf1 lookf2 : position T -> res (bset T)) (acts1 acts2 : acttable T).
Hypothesis L1 : lr0 g start eof p0 sts1 sfk1 lookf1 acts1.
Hypothesis L2 : lr0 g start eof p0 sts2 sfk2 lookf2 acts2.
Hypothesis C1 : lr1c g start eof p0 sts1 sfk1 lookf1.
Hypothesis S2 : lr1s g start eof p0 sts2 sfk2 lookf2.

Lemma looks_incl Xs : forall q1 qs1 q2 qs2 A pr p x, term (g_rules g) x -> path sts1 sfk1 (q1 :: qs1) Xs -> path sts2 sfk2 (q2 :: qs2) Xs ->
  hasl sts2 lookf2 q2 A pr p x -> hasl sts1 lookf1 q1 A pr p x.
Proof.
  induction Xs as [|X Xs IH]; intros q1 qs1 q2 qs2 A pr p x Hx P1 P2 H; pose proof (same_items _ _ _ _ _ _ _ _ _ _ _ _ L2 L1) as SI; 
    specialize (fun A pr p => SI _ q2 qs2 q1 qs1 A pr p P2 P1); apply (s_just _ _ _ _ _ _ _ S2) in H; auto.
  - assert (q1 = 0 /\ q2 = 0) as [-> ->] by (inversion P1; inversion P2; auto). clear P1 P2.
    remember 0 as z eqn:Ez in H at 1. revert Ez Hx. induction H as [|q A pr p x H|q A pr p B Y i rhs x J HB HY Hp Hf|q A pr p B i rhs x J IHj HB HY Hp]; intros Ez Hx.
    + apply (c_start _ _ _ _ _ _ _ C1).
    + rewrite Ez in H. apply hasl_has in H. apply (l_zero _ _ _ _ _ _ _ _ L2) in H. discriminate.
    + subst q. eapply (c_first _ _ _ _ _ _ _ C1); eauto. apply SI. eapply (just_has _ _ _ _ _ _ _ _ L2); eauto.
    + eapply (c_last _ _ _ _ _ _ _ C1); eauto.
  - inversion P1 as [|q1' qs1' ? ? ? P1' T1]; inversion P2 as [|q2' qs2' ? ? ? P2' T2]; subst.
    remember q2 as z eqn:Ez in H at 1. revert Ez Hx. induction H as [|q A pr p x H|q A pr p B Y i rhs x J HB HY Hp Hf|q A pr p B i rhs x J IHj HB HY Hp]; intros Ez Hx.
    + exfalso. subst q2. exact (tr_nonzero _ _ _ _ _ _ _ _ L2 _ _ _ T2 eq_refl).
    + subst q. destruct (l_back _ _ _ _ _ _ _ _ L2 _ _ _ _ _ _ T2 (hasl_has _ _ _ _ _ _ _ H)) as [_ Hn].
      apply (s_back _ _ _ _ _ _ _ S2 _ _ _ _ _ _ _ T2) in H.
      eapply (c_fwd _ _ _ _ _ _ _ C1); eauto.
    + subst q. eapply (c_first _ _ _ _ _ _ _ C1); eauto. apply SI. eapply (just_has _ _ _ _ _ _ _ _ L2); eauto.
    + eapply (c_last _ _ _ _ _ _ _ C1); eauto.
Qed.
End Sub.

Section Clean.
Context {T : Type} {OT : Ord T}.
Variables (dbg : bool) (start eof : T) (rules : rulemap T) (g : grammar T).
Hypothesis W : wf_rules rules.
Hypothesis Hg : grammar_new dbg start rules eof = Val g.

Lemma lalr_clean_clr k t tc : makes k dbg g t -> k <> LALR \/ carries t -> makes CLR dbg g tc -> term rules eof -> dbg = true \/ only_terminals tc ->
  conflicts (t_actions t) = [] -> conflicts (t_actions tc) = [].
Proof.
  intros Hm Hk Hc He Ho Hcl. destruct (Wp0 _ _ _ _ _ W Hg) as (p0 & Hp0 & _).
  destruct (makes_made _ _ _ _ _ W Hg _ _ _ Hm Hp0) as (sfk1 & lookf1 & X1).
  destruct (makes_terminals _ _ _ _ _ W Hg _ _ Hc Ho) as (t0 & Ht0 & _ & _ & Hf & _). pose proof (tmakes_facts _ _ _ _ _ W Hg _ Ht0) as F.
  destruct (makes_with _ _ _ _ _ W Hg _ _ _ Ht0 Hc) as (fc & Ec).
  pose proof (clr_lr0 _ _ _ _ _ W Hg _ F _ _ Ec _ Hp0) as L2. pose proof (clr_lr1s _ _ _ _ _ W Hg _ F _ _ Ec _ Hp0) as S2.
  destruct (clr_inv _ _ _ _ _ W Hg _ F _ _ Ec) as (_ & _ & _ & HC & _). pose proof (Wr _ _ _ _ _ Hg) as Er.
  assert (HT : forall q A pr x, hasl (t_states tc) clr_look q A pr (length (fst pr)) x -> term (g_rules g) x).
  { intros q A pr x Hh. rewrite Er. eapply (clr_look_Q _ _ _ _ _ W Hg _ F) with (Q := fun _ x => term rules x); eauto. eapply Qterm; eauto. }
  pose proof (m_lr0 _ _ _ _ _ _ _ _ _ _ X1) as L1. pose proof (m_lr1c _ _ _ _ _ _ _ _ _ _ X1 Hk He) as C1.
  refine (clean_incl _ _ _ _ _ _ _ _ _ _ _ _ L1 L2 (canon_reach _ _ _ _ HC) _ HT Hcl).
  intros q1 q2 qs1 qs2 Xs A pr x P1 P2 H2. exact (looks_incl _ _ _ _ _ _ _ _ _ _ _ _ L1 L2 C1 S2 _ _ _ _ _ _ _ _ _ (HT _ _ _ _ H2) P1 P2 H2).
Qed.
End Clean.
