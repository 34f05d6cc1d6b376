(** A state holds the items valid after the symbols that lead to it (C120). *)
From Coq Require Import List Bool Arith Lia.
From Verif Require Import BTree Model Base Spec SpecP Interface GrammarP FirstFollow Closure Canon ActTab LR Sound CanonLR Prefix Merged Lalr LalrLR Agree Wrap Final Export LR1Spec ValidSpec Cores Handle HandleF.
Import ListNotations.

Section Valid.
Context {T : Type} {OT : Ord T}.
Variables (dbg : bool) (start eof : T) (rules : rulemap T) (g : grammar T).
Hypothesis W : wf_rules rules.
Hypothesis Hg : grammar_new dbg start rules eof = Val g.

Lemma Er : g_rules g = rules. Proof. exact (proj1 (grammar_new_inv _ _ _ _ _ Hg)). Qed.

Lemma moves_path p0 sfk lookf t qs Xs : lr0 g start eof p0 (t_states t) sfk lookf (t_actions t) -> stack_path t qs Xs -> path (t_states t) sfk qs Xs.
Proof. intros L. induction 1; [constructor|]. econstructor; eauto. eapply moves_tr; eauto. Qed.

Lemma item_has (t : tabler T) q A i u v : item_in t q A i u v <-> has (t_states t) q A (u ++ v, i) (length u).
Proof.
  split.
  - intros (row & [A' pr p l] & E & H & E1 & E2 & E3). cbn in *. subst. exists row, l. auto.
  - intros (row & l & E & H). exists row, (mkPos A (u ++ v, i) (length u) l). auto.
Qed.

Lemma items_valid k t : makes k dbg g t -> dbg = true \/ single_start rules start -> productive rules ->
  (forall q qs xs, stack_path t (q :: qs) xs -> forall A i u v, item_in t q A i u v <-> valid_after rules start (rev xs) A i u v) /\
  (forall pre, (exists q qs, stack_path t (q :: qs) (rev pre)) <-> (exists A i u v, valid_after rules start pre A i u v)) /\
  (forall q row pos, nth_error (t_states t) q = Some row -> In pos row -> exists A i u v, p_rule pos = A /\ p_seq pos = (u ++ v, i) /\ p_point pos = length u).
Proof.
  intros Hm Hs0 Hp. assert (single_start rules start) as Hs by (destruct Hs0; eauto using debug_single).
  destruct (Wp0 _ _ _ _ _ W Hg) as (p0 & Hp0 & _). destruct (makes_made _ _ _ _ _ W Hg _ _ _ Hm Hp0) as (sfk & lookf & X).
  pose proof (m_lr0 _ _ _ _ _ _ _ _ _ _ X) as L. pose proof (one_start _ _ _ _ _ W Hg _ Hp0 Hs) as H1.
  assert (HI : forall q qs xs, stack_path t (q :: qs) xs -> forall A i u v, item_in t q A i u v <-> valid_after rules start (rev xs) A i u v).
  { intros q qs xs P A i u v. apply (moves_path _ _ _ _ _ _ L) in P. rewrite item_has, <- Er. split.
    - intros H. rewrite <- Er in Hp. apply (has_valid_after _ _ _ _ _ _ _ _ L Hp _ _ _ _ _ _ P) in H. cbn [fst snd] in H.
      now rewrite firstn_app, skipn_app, firstn_all, skipn_all, Nat.sub_diag, app_nil_r in H.
    - intros V. apply (valid_has _ _ _ _ _ _ _ _ L H1) in V as (q2 & qs2 & P2 & H2). rewrite rev_involutive in P2.
      pose proof (path_fun _ _ _ _ P _ P2) as E. now injection E as <- <-. }
  assert (HP : forall q row pos, nth_error (t_states t) q = Some row -> In pos row -> exists A i u v, p_rule pos = A /\ p_seq pos = (u ++ v, i) /\ p_point pos = length u).
  { intros q row [A [rhs i] p l] E H. assert (has (t_states t) q A (rhs, i) p) as Hh by (exists row, l; auto).
    apply (l_valid _ _ _ _ _ _ _ _ L) in Hh as [_ Hle]. cbn in Hle. exists A, i, (firstn p rhs), (skipn p rhs). cbn.
    rewrite firstn_skipn, firstn_length_le; auto. }
  split; auto. split; auto. intros pre. split.
  - intros (q & qs & P). assert (exists A pr p, has (t_states t) q A pr p) as (A & pr & p & Hh).
    { apply (moves_path _ _ _ _ _ _ L) in P. inversion P as [|q1 qs1 Y Ys n P1 Ht]; subst.
      - exists start, p0, 0. apply (l_start _ _ _ _ _ _ _ _ L).
      - pose proof Ht as (row & [A pr p l] & K1 & K2 & K3 & _). rewrite ptop_nth in K3. exists A, pr, (S p).
        eapply (l_fwd _ _ _ _ _ _ _ _ L); eauto. exists row, l. auto. }
    pose proof Hh as (row & l & E & Hi). destruct (HP _ _ _ E Hi) as (A' & i & u & v & E1 & E2 & E3). cbn in E1, E2, E3.
    exists A', i, u, v. rewrite <- (rev_involutive pre). apply (HI _ _ _ P). apply item_has. now subst.
  - intros (A & i & u & v & V). rewrite <- Er in V. apply (valid_has _ _ _ _ _ _ _ _ L H1) in V as (q & qs & P & _).
    exists q, qs. eapply path_moves; eauto.
Qed.

Lemma looks_valid t : makes CLR dbg g t -> term rules eof -> dbg = true \/ single_start rules start -> dbg = true \/ only_terminals t -> productive rules ->
  forall q qs xs, stack_path t (q :: qs) xs -> forall A i u v x, item_look t q A i u v x <-> valid_look rules start eof (rev xs) A i u v x.
Proof.
  intros Hm He Hs0 Ho Hp. assert (single_start rules start) as Hs by (destruct Hs0; eauto using debug_single).
  destruct (makes_terminals _ _ _ _ _ W Hg _ _ Hm Ho) as (t1 & Ht & _ & _ & Hf & _). pose proof (tmakes_facts _ _ _ _ _ W Hg _ Ht) as F.
  destruct (makes_with _ _ _ _ _ W Hg _ _ _ Ht Hm) as (fm & Em). destruct (Wp0 _ _ _ _ _ W Hg) as (p0 & Hp0 & _).
  pose proof (clr_lr0 _ _ _ _ _ W Hg _ F _ _ Em _ Hp0) as L. pose proof (clr_lr1s _ _ _ _ _ W Hg _ F _ _ Em _ Hp0) as S1.
  pose proof (clr_lr1c _ _ _ _ _ W Hg _ F _ _ Em _ Hp0) as C. pose proof (one_start _ _ _ _ _ W Hg _ Hp0 Hs) as H2.
  assert (Q : forall q A pr k x, hasl (t_states t) clr_look q A pr k x -> term (g_rules g) x).
  { intros q A pr k x H. rewrite Er. exact (clr_look_Q _ _ _ _ _ W Hg _ F _ _ _ _ _ _ _ _ Em (Qterm _ _ _ _ _ _ F He Hf) H). }
  intros q qs xs P A i u v x. apply (moves_path _ _ _ _ _ _ L) in P.
  assert (item_look t q A i u v x <-> hasl (t_states t) clr_look q A (u ++ v, i) (length u) x) as ->.
  { rewrite clr_hasl. split.
    - intros (row & [A' pr p l] & E & H & E1 & E2 & E3 & E4). cbn in *. subst. eauto.
    - intros (row & l & E & H & E4). exists row, (mkPos A (u ++ v, i) (length u) l). cbn. auto 8. }
  rewrite <- Er in He, Hp |- *. split.
  - intros H. pose proof (l_valid _ _ _ _ _ _ _ _ L _ _ _ _ (hasl_has _ _ _ _ _ _ _ H)) as [HA _].
    destruct (hasl_rsf _ _ _ _ _ _ _ _ L Hp S1 Q _ _ _ _ _ _ _ P H) as (a & w & R & E & N). split; auto.
    exists a, w. cbn [fst] in E. rewrite firstn_app, firstn_all, Nat.sub_diag, app_nil_r in E. repeat split; auto; eauto using rsf_rms, rsf_term.
  - intros (HA & a & w & R & Tw & E & N). apply rms_rsf in R; auto; [|eapply prod_nonterm; eauto].
    destruct (rsf_hasl _ _ _ _ _ _ _ _ L H2 C He _ _ _ R _ _ (length u) HA) as (q2 & qs2 & P2 & H3); [rewrite app_length; lia|].
    rewrite firstn_app, firstn_all, Nat.sub_diag, app_nil_r, <- E, rev_involutive in P2.
    pose proof (path_fun _ _ _ _ P _ P2) as EE. injection EE as <- <-. now rewrite N in H3.
Qed.
End Valid.
