(** Lalr builds Clr's table if no two states of Clr have the same items (C91). *)
From Coq Require Import List Bool Arith Lia.
From Verif Require Import BTree Model Base Spec SpecP GrammarP FirstFollow Closure Canon ActTab LR CanonLR Merged Lalr LalrLR Interface Wrap Final.
Import ListNotations.

Lemma mapM_ext_in {A B} (f h : A -> res B) l : (forall x, In x l -> f x = h x) -> mapM f l = mapM h l.
Proof.
  induction l as [|x l IH]; intros E; simpl; auto. rewrite E by now left. destruct (h x); simpl; auto. rewrite IH; auto.
  intros; apply E. now right.
Qed.

Section Sim.
Context {T : Type} {OT : Ord T}.
Variables (dbg : bool) (start eof : T) (rules : rulemap T) (g : grammar T).
Hypothesis W : wf_rules rules.
Hypothesis Hg : grammar_new dbg start rules eof = Val g.
Variable lk : position T -> bset T.
Variable closure : state T -> res (state T).
Hypothesis Hc : closure_ok g lk closure.
Hypothesis Hl : lk_ok g lk.
Variable fin : bmap (state T) nat * list (state T).
Hypothesis Hinj : forall k1 k2 i1 i2, bm_get k1 (fst fin) = Some i1 -> bm_get k2 (fst fin) = Some i2 -> k1 <> [] -> k2 <> [] ->
  without_look k1 = without_look k2 -> i1 = i2.

(** [p] is Lalr's state when Clr's is [st] *)
Record sim (st : bmap (state T) nat * list (state T)) (p : lalr T) : Prop := {
  sm_ks : l_kernels p = fst st;
  sm_sts : l_states p = snd st;
  sm_raw : forall r k, bm_get r (l_raws p) = Some k -> r <> [] -> k <> [] /\ without_look k = r /\ exists i, bm_get k (fst st) = Some i;
  sm_key : forall k i, bm_get k (fst st) = Some i -> k <> [] -> bm_get (without_look k) (l_raws p) = Some k
}.

Lemma sim_init s0 : sim ([([], 0)], [s0]) (mkLalr [([], 0)] [s0] [([], s0)]).
Proof.
  constructor; simpl; auto.
  - intros r k E N. destruct (eqb_spec r []); congruence.
  - intros k i E N. destruct (eqb_spec k []); congruence.
Qed.

Lemma sim_syms fuel syms idx row ss st st' p : cinv g lk st -> nth_error (snd st) idx = Some row -> ext st' fin ->
  proc_syms dbg closure fuel ss row st = Val st' -> sim st p ->
  exists p', lalr_syms dbg closure fuel syms idx row ss p = Val (p', false) /\ sim st' p'.
Proof.
  intros Hci Hrow Hx. rewrite proc_syms_eq. revert st p Hci Hrow. induction ss as [|X ss IH]; intros st p Hci Hrow E Hs; cbn [foldM] in E.
  - injection E as <-. exists p. auto.
  - apply bind_val in E as (st1 & E1 & E2).
    destruct (sym_step_spec dbg start eof rules g W Hg lk closure Hc Hl _ _ _ _ _ _ Hci Hrow E1) as (Hci1 & Hx1 & _).
    assert (ext st1 fin) as Hxf.
    { eapply ext_trans; [|exact Hx]. pose proof (proc_syms_spec dbg start eof rules g W Hg lk closure Hc Hl fuel ss row idx st1 st' Hci1) as P.
      rewrite proc_syms_eq in P. apply P; auto. eapply ext_nth; eauto. }
    assert (Hrow1 : nth_error (snd st1) idx = Some row) by (eapply ext_nth; eauto).
    cbn [lalr_syms]. destruct st as [ks sts]. cbn [sym_step] in E1. apply bind_val in E1 as (o & Eo & E1).
    rewrite (sm_ks _ _ Hs). cbn [fst]. rewrite Eo. cbn [bind].
    pose proof Eo as Eo'. apply (goto_kernel_spec g lk closure Hc) in Eo'; [|apply (ci_nil _ _ _ Hci)].
    destruct Eo' as [[-> _]|(c & -> & Hno & Hne & _)].
    + injection E1 as <-. eauto.
    + apply bind_val in E1 as (u & Eu & E1). injection E1 as <-.
      assert (without_look (sym_filter row X) <> []) as Hwn by (rewrite without_look_nil; auto).
      destruct (bm_get (without_look (sym_filter row X)) (l_raws p)) as [main|] eqn:Em.
      * exfalso. destruct (sm_raw _ _ Hs _ _ Em Hwn) as (Nm & Ew & i & Hi). cbn [fst] in Hi.
        assert (bm_get main (fst fin) = Some i) as H1 by (apply Hxf; apply Hx1; exact Hi).
        assert (bm_get (sym_filter row X) (fst fin) = Some (length sts)) as H2 by (apply Hxf; cbn [fst]; apply bm_get_insert_eq).
        pose proof (Hinj _ _ _ _ H1 H2 Nm Hne Ew) as ->.
        destruct (ci_ks _ _ _ Hci _ _ Hi Nm) as (_ & (c' & Ec & _) & _). cbn [snd] in Ec.
        assert (nth_error sts (length sts) <> None) as N by congruence. apply nth_error_Some in N. lia.
      * rewrite Eu. cbn [bind]. apply (IH _ _ Hci1 Hrow1 E2). rewrite (sm_sts _ _ Hs). cbn [snd].
        constructor; cbn [fst snd l_kernels l_states l_raws]; auto.
        -- intros r k Ek Nr. rewrite bm_get_insert in Ek. destruct (eqb_spec r (without_look (sym_filter row X))) as [->|N].
           ++ injection Ek as <-. split; auto. split; auto. exists (length sts). apply bm_get_insert_eq.
           ++ destruct (sm_raw _ _ Hs _ _ Ek Nr) as (H1 & H2 & i & H3). split; auto. split; auto. exists i. apply Hx1. exact H3.
        -- intros k i Ek Nk. rewrite bm_get_insert in Ek. destruct (eqb_spec k (sym_filter row X)) as [->|N].
           ++ apply bm_get_insert_eq.
           ++ pose proof (sm_key _ _ Hs _ _ Ek Nk) as H1. rewrite bm_get_insert_neq; auto. intros E. rewrite E in H1. congruence.
Qed.

Lemma sim_rows cfuel fuel idx st p : cinv g lk st -> upto g st idx -> idx <= length (snd st) ->
  proc_rows dbg closure cfuel (g_symbols g) fuel idx st = Val fin -> sim st p ->
  exists p', lalr_rows dbg closure cfuel (g_symbols g) fuel idx p = Val p' /\ sim fin p'.
Proof.
  revert idx st p. induction fuel as [|fuel IH]; intros idx st p Hci Hup Hle E Hs; [discriminate|]. cbn [proc_rows lalr_rows] in *.
  rewrite (sm_sts _ _ Hs). destruct (nth_error (snd st) idx) as [row|] eqn:Er.
  - apply bind_val in E as (st1 & E1 & E2). pose proof E1 as E1'.
    apply (proc_syms_spec dbg start eof rules g W Hg lk closure Hc Hl _ _ _ idx) in E1' as (H1 & H2 & H3); auto.
    assert (upto g st1 (S idx)) as Hup1.
    { intros j row' Hj Ej. destruct (Nat.eq_dec j idx) as [->|N].
      - rewrite (ext_nth _ _ _ _ H2 Er) in Ej. injection Ej as <-. exact H3.
      - assert (idx < length (snd st)) as Hi by (apply nth_error_Some; congruence).
        assert (nth_error (snd st) j = Some row') as Ej'.
        { destruct H2 as [_ (l & E')]. rewrite E' in Ej. rewrite nth_error_app1 in Ej; auto. lia. }
        eapply row_done_ext; eauto. eapply Hup; eauto. lia. }
    assert (S idx <= length (snd st1)) as Hle1.
    { destruct H2 as [_ (l & E')]. rewrite E', app_length. assert (idx < length (snd st)) by (apply nth_error_Some; congruence). lia. }
    pose proof (proc_rows_spec dbg start eof rules g W Hg lk closure Hc Hl _ _ _ _ _ H1 Hup1 Hle1 E2) as (_ & Hxf & _).
    destruct (sim_syms cfuel (g_symbols g) idx row (g_symbols g) st st1 p Hci Er Hxf E1 Hs) as (p1 & Ep & Hs1). rewrite Ep. cbn [bind].
    apply (IH _ st1); auto.
  - injection E as <-. eauto.
Qed.

Lemma sim_closures fuel : proc_closures dbg closure fuel g = Val fin ->
  exists p, lalr_closures dbg closure fuel g = Val p /\ sim fin p.
Proof.
  unfold proc_closures, lalr_closures. intros E. apply bind_val in E as (s0 & E0 & E). rewrite E0. cbn [bind].
  apply (prop_closure_spec g lk) in E0 as (S0 & H0 & _); auto.
  eapply sim_rows; [| | |exact E|apply sim_init].
  - eapply cinv_init; eauto.
  - intros j row Hj. lia.
  - simpl. lia.
Qed.

Lemma sim_actions sts ks p lookf : sim (ks, sts) p -> canon g lk ks sts ->
  proc_actions g lookf (sfk_lalr p) sts = proc_actions g lookf (sfk_plain ks) sts.
Proof.
  intros Hs HC. unfold proc_actions. apply mapM_ext_in. intros row Hrow. apply In_nth_error in Hrow as (j & Hj).
  unfold row_actions. apply foldM_ext. intros m item Hi. f_equal.
  unfold decision. destruct (ptop item) as [X|] eqn:Et; auto. f_equal. f_equal.
  destruct HC as [Hci Hd]. assert (In X (g_symbols g)) as HX by (eapply ptop_symbols; eauto; eapply (ci_vpos _ _ _ Hci); eauto).
  destruct (Hd j row X Hj HX) as (n & Hn). unfold sfk_lalr, sfk_plain.
  assert (sym_filter row X <> []) as N.
  { intros E. assert (In (adv item) (sym_filter row X)) as H by (apply sym_filter_in; eauto). rewrite E in H. destruct H. }
  rewrite (sm_key _ _ Hs _ _ Hn N), (sm_ks _ _ Hs). reflexivity.
Qed.
End Sim.

Section LalrClr.
Context {T : Type} {OT : Ord T}.
Variables (dbg : bool) (start eof : T) (rules : rulemap T) (g : grammar T).
Hypothesis W : wf_rules rules.
Hypothesis Hg : grammar_new dbg start rules eof = Val g.

(** *** C91 *)
Lemma lalr_is_clr tc : makes CLR dbg g tc ->
  (forall q q' row row', nth_error (t_states tc) q = Some row -> nth_error (t_states tc) q' = Some row' ->
     (forall A pr i, (exists l, In (mkPos A pr i l) row) <-> (exists l, In (mkPos A pr i l) row')) -> q = q') ->
  makes LALR dbg g tc.
Proof.
  intros (fuel & E) Hd. cbn [makes]. unfold clr_new in E. apply bind_val in E as (t & Et & E).
  pose proof (tabler_new_facts _ _ _ _ _ W Hg _ _ Et) as F. pose proof (tf_grammar _ _ _ _ _ _ F) as Eg.
  unfold clr_with_table in E. rewrite Eg in E. apply bind_val in E as ([ks sts] & Ec & E). apply bind_val in E as (acts & Ea & E).
  injection E as <-. cbn [t_states] in Hd.
  set (lk := clr_lk (t_first t)) in *.
  assert (closure_ok g lk (clr_closure g (t_first t))) as Hc by apply clr_closure_ok.
  assert (lk_ok g lk) as Hl by (exact (clr_lk_ok _ _ _ _ _ W Hg _ F)).
  pose proof (proc_closures_spec dbg start eof rules g W Hg _ _ Hc Hl _ _ _ Ec) as HC.
  destruct (sim_closures dbg start eof rules g W Hg lk _ Hc Hl (ks, sts)) with (fuel := fuel) as (p & Ep & Hs); auto.
  { cbn [fst]. intros k1 k2 i1 i2 H1 H2 N1 N2 Ew. destruct HC as [Hci _].
    destruct (ci_ks _ _ _ Hci _ _ H1 N1) as (_ & (c1 & E1 & _ & C1) & _).
    destruct (ci_ks _ _ _ Hci _ _ H2 N2) as (_ & (c2 & E2 & _ & C2) & _).
    apply (Hd _ _ _ _ E1 E2).
    assert (X : forall (k c : state T) A pr i, (forall q, In q c <-> clo g lk k q) -> (exists l, In (mkPos A pr i l) c) <-> clo g slr_lk (without_look k) (mkPos A pr i [])).
    { intros k c A pr i H. rewrite <- (clo_bodies g lk). split.
      - intros (l & Hi). exists (mkPos A pr i l). split; [now apply H|reflexivity].
      - intros ([A' pr' i' l] & Hq & Eq). injection Eq as -> -> ->. exists l. now apply H. }
    intros A pr i. rewrite (X k1 c1), (X k2 c2) by auto. rewrite Ew. reflexivity. }
  exists fuel, p. unfold lalr_new. rewrite Et. cbn [bind]. unfold lalr_with_table. rewrite Eg, Ep. cbn [bind].
  pose proof (sm_sts _ _ Hs) as E1. pose proof (sm_ks _ _ Hs) as E2. cbn [fst snd] in E1, E2. rewrite E1, E2.
  rewrite (sim_actions dbg start eof rules g W Hg lk sts ks p clr_look Hs HC), Ea. reflexivity.
Qed.
End LalrClr.
