(** The Lalr table satisfies [lr0] (C12, C21, C23, C40); its construction is total (C09);
    its lookaheads lie in FOLLOW (C27) and are closed inside each state (towards C15). *)
From Coq Require Import List Bool Arith Lia.
From Verif Require Import BTree Model Base Spec SpecP GrammarP FirstFollow Closure Canon ActTab LR CanonLR Merged Lalr.
Import ListNotations.

Section LalrLR.
Context {T : Type} {OT : Ord T}.
Variables (dbg : bool) (start eof : T) (rules : rulemap T) (g : grammar T).
Hypothesis W : wf_rules rules.
Hypothesis Hg : grammar_new dbg start rules eof = Val g.
Variable t : tabler T.
Hypothesis F : tabler_facts dbg start eof rules g t.

Let Er : g_rules g = rules.
Proof. exact (proj1 (grammar_new_inv _ _ _ _ _ Hg)). Qed.
Let Wg' : wf_rules (g_rules g).
Proof. rewrite Er. exact W. Qed.
Notation lk := (clr_lk (t_first t)).
Notation wl := without_look.

(** positions of the grammar whose lookaheads are related by [Q] to their rule *)
Definition Vq (Q : T -> T -> Prop) (p : position T) : Prop := vpos g p /\ forall x, In x (p_look p) -> Q (p_rule p) x.

Record Qok (Q : T -> T -> Prop) : Prop := {
  q_start : Q start eof;
  q_first : forall A i u B Y v x, prod_at rules A i (u ++ B :: Y :: v) -> nonterm rules B -> In x (first_of (t_first t) [Y]) -> Q B x;
  q_last : forall A i u B x, prod_at rules A i (u ++ [B]) -> nonterm rules B -> Q A x -> Q B x
}.

(** rows closed under the item-set closure, lookahead by lookahead *)
Definition rclosed (row : state T) : Prop :=
  forall p B r pr, In p row -> ptop p = Some B -> bm_get B (g_rules g) = Some r -> In pr (r_prods r) ->
    forall x, In x (lk p) -> exists l, In (mkPos B pr 0 l) row /\ In x l.

Section Q.
Variable Q : T -> T -> Prop.
Hypothesis HQ : Qok Q.

Lemma Vq_v p : Vq Q p -> vpos g p.
Proof. intros [H _]. exact H. Qed.

Lemma Vq_y p q : Vq Q p -> yields g lk p q -> Vq Q q.
Proof.
  intros [Hv Hq] Hy. split; [exact (yields_vpos g Wg' lk _ _ (clr_lk_ok _ _ _ _ _ W Hg _ F) Hv Hy)|].
  destruct Hy as (B & r & pr & Et & Hr & Hpr & ->). cbn [p_look p_rule]. intros x Hx. unfold clr_lk in Hx.
  destruct p as [A pr' k l]. rewrite ptop_nth in Et. rewrite pnext_nth in Hx. destruct Hv as [[Hp _] _]. cbn [p_rule p_seq] in *.
  rewrite Er in *. assert (nonterm rules B) as HB by (exists r; auto).
  destruct (nth_error (fst pr') (S k)) as [Y|] eqn:Ey.
  - destruct (nth_two _ _ _ _ Et Ey) as (u & v & Eu). rewrite Eu in Hp. eapply (q_first _ HQ); eauto.
  - destruct (nth_last _ _ _ Et Ey) as (u & Eu). rewrite Eu in Hp. eapply (q_last _ HQ); eauto.
Qed.

Lemma Vq_a p X : Vq Q p -> ptop p = Some X -> Vq Q (adv p).
Proof. intros [Hv Hq] Et. split; [eapply adv_vpos; eauto|]. exact Hq. Qed.

Lemma Vq_m p : sorted (p_look p) -> (exists q, Vq Q q /\ no_look q = no_look p /\ incl (p_look q) (p_look p)) ->
  (forall x, In x (p_look p) -> exists q, Vq Q q /\ no_look q = no_look p /\ In x (p_look q)) -> Vq Q p.
Proof.
  destruct p as [A pr k l]. unfold no_look. cbn [p_look p_rule p_seq p_point]. intros Hs (q & [[Hb _] _] & Eq & _) Hx.
  split; [split; [|split]|]; cbn [p_look p_rule p_seq p_point]; auto.
  - destruct q as [A1 pr1 k1 l1]. cbn [p_rule p_seq p_point] in *. injection Eq as -> -> ->. exact Hb.
  - intros x Hin. destruct (Hx x Hin) as (q' & [(_ & _ & Hi) _] & _ & Hin'). auto.
  - intros x Hin. destruct (Hx x Hin) as (q' & [_ Hq] & Eq' & Hin'). injection Eq' as E1 _ _. rewrite <- E1. auto.
Qed.

Lemma Vq_b : Vq Q (g_basis g).
Proof.
  split; [exact (basis_vpos _ _ _ _ _ W Hg)|]. destruct (grammar_new_inv _ _ _ _ _ Hg) as (X1 & r & p0 & ps & X2 & X3 & X4 & X5).
  rewrite X4. cbn [p_look p_rule]. intros x [<-|[]]. apply (q_start _ HQ).
Qed.

Lemma rclosed_c seed c : (forall b, In b seed -> Vq Q b) -> sorted c -> (forall q, In q c <-> clo g lk seed q) -> rclosed c.
Proof.
  intros _ _ Hc p B r pr Hp Et Hr Hpr x Hx. exists (lk p). split; auto. apply Hc. apply Hc in Hp.
  eapply clo_yield; eauto. exists B, r, pr. auto.
Qed.

Lemma rclosed_m (c c' : state T) : rclosed c -> rclosed c' -> (forall b, In b c -> Vq Q b) -> (forall b, In b c' -> Vq Q b) ->
  rclosed (merged (bs_of_list (c ++ c'))).
Proof.
  intros H1 H2 _ _ p B r pr Hp Et Hr Hpr x Hx. set (s := bs_of_list (c ++ c')) in *. pose proof (merged_spec s) as M.
  assert (exists q, In q s /\ no_look q = no_look p /\ In x (lk q)) as (q & Hq & Eq & Hxq).
  { destruct (pnext p) as [Y|] eqn:Ey.
    - destruct (proj1 (mo_body _ _ M (no_look p))) as (q & Hq & Eq); eauto. exists q. split; auto. split; auto.
      unfold clr_lk in *. rewrite Ey in Hx. replace (pnext q) with (Some Y); auto. rewrite <- Ey.
      change (pnext (no_look p) = pnext (no_look q)). congruence.
    - unfold clr_lk in Hx. rewrite Ey in Hx. apply (mo_look _ _ M) in Hx as (q & Hq & Eq & Hxq); auto.
      exists q. split; auto. split; auto. unfold clr_lk. replace (pnext q) with (@None T); auto. rewrite <- Ey.
      change (pnext (no_look p) = pnext (no_look q)). congruence. }
  assert (ptop q = Some B) as Et' by (rewrite <- Et; change (ptop (no_look q) = ptop (no_look p)); congruence).
  assert (exists l, In (mkPos B pr 0 l) s /\ In x l) as (l & Hl & Hxl).
  { apply bs_of_list_in, in_app_iff in Hq as [Hq|Hq].
    - destruct (H1 q B r pr Hq Et' Hr Hpr x Hxq) as (l & Hl & Hxl). exists l. split; auto. apply bs_of_list_in, in_app_iff. auto.
    - destruct (H2 q B r pr Hq Et' Hr Hpr x Hxq) as (l & Hl & Hxl). exists l. split; auto. apply bs_of_list_in, in_app_iff. auto. }
  destruct (proj2 (mo_body _ _ M (no_look (mkPos B pr 0 l)))) as (q' & Hq' & Eq'); eauto.
  exists (p_look q'). split.
  - destruct q' as [A' pr' k' l']. injection Eq' as -> -> ->. exact Hq'.
  - apply (mo_look _ _ M); auto. exists (mkPos B pr 0 l). auto.
Qed.

Lemma lalr_closures_canon fuel p : lalr_closures dbg (clr_closure g (t_first t)) fuel g = Val p -> lcanon g lk (Vq Q) rclosed p.
Proof.
  exact (lalr_closures_spec dbg start eof rules g W Hg lk _ (clr_closure_ok g (t_first t)) (clr_lk_ok _ _ _ _ _ W Hg _ F)
    (Vq Q) Vq_v Vq_y Vq_a Vq_m Vq_b rclosed rclosed_c rclosed_m fuel p).
Qed.
End Q.

Lemma Qtrue : Qok (fun _ _ => True).
Proof. constructor; auto. Qed.

Section Table.
Variable t' : tabler T.
Variable p : lalr T.
Variable fuel : nat.
Hypothesis Ht' : lalr_with_table dbg fuel t = Val (t', p).

Lemma lalr_inv : t_grammar t' = g /\ t_first t' = t_first t /\ t_follow t' = t_follow t /\ t_states t' = l_states p /\ t_kernels t' = l_kernels p /\
  (forall Q, Qok Q -> lcanon g lk (Vq Q) rclosed p) /\
  proc_actions g clr_look (sfk_lalr p) (l_states p) = Val (t_actions t').
Proof.
  unfold lalr_with_table in Ht'. rewrite (tf_grammar _ _ _ _ _ _ F) in Ht'. apply bind_val in Ht' as (p' & H1 & H2).
  apply bind_val in H2 as (acts & H2 & [= <- <-]). cbn [t_grammar t_first t_follow t_states t_kernels t_actions].
  split; [|split; [|split; [|split; [|split; [|split]]]]]; auto.
  intros Q HQ. exact (lalr_closures_canon Q HQ _ _ H1).
Qed.

Notation sts := (l_states p).
Notation has := (has sts).
Notation hasl := (hasl sts clr_look).
Notation tr := (tr sts (sfk_lalr p)).

Lemma lhas q A pr k : has q A pr k <-> exists row, nth_error sts q = Some row /\ In (mkPos A pr k []) (wl row).
Proof.
  split.
  - intros (row & l & E & H). exists row. split; auto. apply without_look_in. exists (mkPos A pr k l). auto.
  - intros (row & E & H). apply without_look_in in H as ([A' pr' k' l] & H & Eq). injection Eq as <- <- <-. exists row, l. auto.
Qed.

Lemma lalr_hasl q A pr k x : hasl q A pr k x <->
  exists row l, nth_error sts q = Some row /\ In (mkPos A pr k l) row /\ In x l.
Proof.
  unfold LR.hasl, clr_look. split.
  - intros (row & l & look & H1 & H2 & [= <-] & H3). eauto.
  - intros (row & l & H1 & H2 & H3). exists row, l, l. auto.
Qed.

Let C : lcanon g lk (Vq (fun _ _ => True)) rclosed p.
Proof. apply lalr_inv. apply Qtrue. Qed.
Let I : linv g lk (Vq (fun _ _ => True)) rclosed p := proj1 C.

Lemma lalr_row q row : nth_error sts q = Some row -> exists seed,
  (forall b, In b (wl row) <-> clo g slr_lk seed b) /\
  ((q = 0 /\ seed = [no_look (g_basis g)]) \/
   (q <> 0 /\ seed <> [] /\ exists k, bm_get seed (l_raws p) = Some k /\ bm_get k (l_kernels p) = Some q /\
      exists j row' X, j < q /\ nth_error sts j = Some row' /\ seed = sym_filter (wl row') X)).
Proof.
  intros E. destruct (Nat.eq_dec q 0) as [->|N].
  - destruct (li_zero _ _ _ _ _ I) as (s0 & E0 & S0 & H0). rewrite E in E0. injection E0 as <-.
    exists [no_look (g_basis g)]. split; auto. intros b.
    change [no_look (g_basis g)] with (wl [g_basis g]). rewrite <- (clo_bodies g lk), without_look_in.
    split; intros (x & Hx & Ex); exists x; split; auto; now apply H0.
  - destruct (li_sts _ _ _ _ _ I q) as (k & Nk & Hk).
    { split; [lia|]. apply nth_error_Some. congruence. }
    pose proof (li_ker _ _ _ _ _ I _ _ Hk Nk) as Hr. pose proof (wl_ne _ Nk) as Nw.
    destruct (li_raw _ _ _ _ _ I _ _ Hr Nw) as [_ _ _ (n & row1 & A1 & A2 & A3 & A4 & A5)].
    assert (n = q) by congruence. subst n. rewrite E in A3. injection A3 as <-.
    exists (wl k). split; auto. right. split; auto. split; auto. exists k. auto.
Qed.

Lemma lalr_key (kernel : state T) n : sfk_lalr p kernel = Some n -> kernel <> [] ->
  0 < n /\ exists row, nth_error sts n = Some row /\ forall b, In b (wl row) <-> clo g slr_lk (wl kernel) b.
Proof.
  unfold sfk_lalr. destruct (bm_get (wl kernel) (l_raws p)) as [k|] eqn:Hr; [|discriminate]. intros Hk N.
  destruct (li_raw _ _ _ _ _ I _ _ Hr (wl_ne _ N)) as [_ _ _ (n' & row1 & A1 & A2 & A3 & A4 & A5)].
  assert (n' = n) by congruence. subst n'. split; auto. exists row1. auto.
Qed.

Lemma lalr_find q row X : nth_error sts q = Some row -> In X (g_symbols g) -> sym_filter row X <> [] ->
  exists n, sfk_lalr p (sym_filter row X) = Some n.
Proof.
  intros E HX N. pose proof (proj2 C) as Hu. assert (q < length sts) as Hq by (apply nth_error_Some; congruence).
  destruct (Hu q row X Hq E HX N) as (k & Hk). unfold sfk_lalr. rewrite Hk.
  destruct (li_raw _ _ _ _ _ I _ _ Hk (wl_ne _ N)) as [_ _ _ (n' & row1 & A1 & _)]. eauto.
Qed.

Lemma filter_ne (row : state T) pos X : In pos row -> ptop pos = Some X -> sym_filter row X <> [].
Proof.
  intros Hp Ht E. assert (In (adv pos) (sym_filter row X)) as H by (apply sym_filter_in; eauto). rewrite E in H. destruct H.
Qed.

Lemma lalr_tr q X n : tr q X n -> exists row, nth_error sts q = Some row /\ sym_filter row X <> [] /\
   exists c, nth_error sts n = Some c /\ forall b, In b (wl c) <-> clo g slr_lk (sym_filter (wl row) X) b.
Proof.
  intros (row & pos & H1 & H2 & H3 & H4). exists row. split; auto. pose proof (filter_ne _ _ _ H2 H3) as N. split; auto.
  apply lalr_key in H4 as (_ & c & Hc & Hb); auto. exists c. split; auto. now rewrite <- without_look_filter.
Qed.

Lemma lalr_vpos q row pos : nth_error sts q = Some row -> In pos row -> vpos g pos.
Proof. intros E H. eapply Vq_v. exact (li_V _ _ _ _ _ I _ _ _ E H). Qed.

Section P0.
Variable p0 : production T.
Hypothesis Hp0 : g_basis g = mkPos start p0 0 [eof].

Lemma lalr_just q A pr k : has q A pr k -> just g start p0 sts q A pr k.
Proof.
  intros Hh. apply lhas in Hh as (row & E & Hin). destruct (lalr_row _ _ E) as (seed & Hs & Hq).
  apply Hs in Hin. remember (mkPos A pr k []) as x eqn:Ex. revert A pr k Ex.
  induction Hin as [x Hx|x y Hx IH (B & r & pr & Et & Hr & Hpr & ->)]; intros A' pr' k' Ex.
  - destruct Hq as [[-> ->]|(_ & _ & _ & _ & _ & j & row' & X & _ & _ & ->)].
    + destruct Hx as [Hx|[]]. rewrite Hp0 in Hx. unfold no_look in Hx. cbn [p_rule p_seq p_point] in Hx.
      assert (A' = start /\ pr' = p0 /\ k' = 0) as (-> & -> & ->) by (split; [|split]; congruence). constructor.
    + subst x. pose proof Hx as Hx'. apply sym_filter_in in Hx' as (pos & _ & _ & Ea). unfold adv in Ea. injection Ea as E1 E2 E3 E4.
      subst k'. apply j_kernel. apply lhas. exists row. split; auto. apply Hs. now constructor.
  - injection Ex as <- <- <-. destruct x as [A1 pr1 p1 l1]. rewrite ptop_nth in Et. destruct pr as [rhs i].
    assert (l1 = []) as -> by (apply Hs, without_look_in in Hx as (z & _ & Ez); unfold no_look in Ez; congruence).
    eapply j_clo; [eapply IH; reflexivity|exact Et|]. apply (wf_prod_in _ _ _ _ Wg' Hr) in Hpr. exact Hpr.
Qed.

Lemma lalr_lr0 : lr0 g start eof p0 sts (sfk_lalr p) clr_look (t_actions t').
Proof.
  constructor; auto.
  - rewrite Er. exact (tf_noempty _ _ _ _ _ _ F).
  - intros q A pr k (row & l & E & Hin). destruct (lalr_vpos _ _ _ E Hin) as [[H1 H2] _]. auto.
  - destruct (li_zero _ _ _ _ _ I) as (s0 & E0 & S0 & H0). exists s0, [eof]. split; auto. rewrite <- Hp0. apply H0.
    constructor. now left.
  - intros A pr k Hh. apply lhas in Hh as (row & E & Hin). destruct (lalr_row _ _ E) as (seed & Hs & [[_ ->]|[N _]]); [|congruence].
    apply Hs in Hin. apply clo_point in Hin as [[Hin|[]]|Hin]; auto. rewrite Hp0 in Hin. unfold no_look in Hin. cbn [p_rule p_seq p_point] in Hin. congruence.
  - intros q A pr k X (row & l & E & Hin) Hn.
    assert (ptop (mkPos A pr k l) = Some X) as Et by (now rewrite ptop_nth).
    assert (In X (g_symbols g)) as HX by (eapply (ptop_symbols _ _ _ _ _ W Hg); eauto using lalr_vpos).
    destruct (lalr_find q row X E HX (filter_ne _ _ _ Hin Et)) as (n & Hk). exists n, row, (mkPos A pr k l). auto.
  - intros q X n Ht. apply lalr_tr in Ht as (row & _ & _ & c & Ec & _). apply nth_error_Some. congruence.
  - intros q X n A pr k Ht Hh Hn. apply lhas in Hh as (row & E & Hin). apply lalr_tr in Ht as (row' & E' & N & c & Ec & Hc).
    rewrite E in E'. injection E' as <-. apply lhas. exists c. split; auto. apply Hc. constructor.
    apply sym_filter_in. exists (mkPos A pr k []). rewrite ptop_nth. auto.
  - intros q X n A pr k Ht Hh. apply lhas in Hh as (row & E & Hin). apply lalr_tr in Ht as (row' & E' & N & c & Ec & Hc).
    rewrite E in Ec. injection Ec as <-. apply Hc in Hin. apply clo_point in Hin as [Hin|Hin]; [|discriminate].
    apply sym_filter_in in Hin as (pos & Hpos & Et & Ea). symmetry in Ea. apply (nth_adv _ _ _ _ _ _ Et) in Ea as [-> Hn].
    split; auto. apply lhas. exists row'. auto.
  - intros q A pr k B i rhs Hh Hn Hpr. apply lhas in Hh as (row & E & Hin). destruct (lalr_row _ _ E) as (seed & Hs & _).
    apply lhas. exists row. split; auto. apply Hs. apply Hs in Hin. eapply clo_yield; eauto.
    apply wf_prod_at in Hpr as (r & Hr & Hi); auto. exists B, r, (rhs, i).
    rewrite ptop_nth. split; auto. split; auto. split; auto. eapply nth_error_In; eauto.
  - apply lalr_just.
  - apply lalr_inv.
Qed.

(** what remains of the closure conditions: everything but propagation along transitions *)
Lemma lalr_c_start : hasl 0 start p0 0 eof.
Proof.
  apply lalr_hasl. destruct (li_zero _ _ _ _ _ I) as (s0 & E0 & S0 & H0). exists s0, [eof]. split; auto.
  split; [|now left]. rewrite <- Hp0. apply H0. constructor. now left.
Qed.

Lemma lalr_c_first q A pr k B Y i rhs x : has q A pr k -> nth_error (fst pr) k = Some B -> nth_error (fst pr) (S k) = Some Y ->
  prod_at (g_rules g) B i rhs -> first_spec (g_rules g) Y x -> hasl q B (rhs, i) 0 x.
Proof.
  intros (row & l & E & Hin) Hn Hn' Hpr Hf. apply lalr_hasl. apply wf_prod_at in Hpr as (r & Hr & Hi); auto.
  destruct (li_R _ _ _ _ _ I _ _ E (mkPos A pr k l) B r (rhs, i) Hin) with (x := x) as (l' & Hl' & Hx); auto.
  - now rewrite ptop_nth.
  - eapply nth_error_In; eauto.
  - unfold clr_lk. rewrite pnext_nth, Hn'. eapply first_of_spec; eauto; rewrite <- Er; [apply Hf|exact Hf].
  - eauto.
Qed.

Lemma lalr_c_last q A pr k B i rhs x : hasl q A pr k x -> nth_error (fst pr) k = Some B -> nth_error (fst pr) (S k) = None ->
  prod_at (g_rules g) B i rhs -> hasl q B (rhs, i) 0 x.
Proof.
  intros Hh Hn Hn' Hpr. apply lalr_hasl in Hh as (row & l & E & Hin & Hxl). apply lalr_hasl. apply wf_prod_at in Hpr as (r & Hr & Hi); auto.
  destruct (li_R _ _ _ _ _ I _ _ E (mkPos A pr k l) B r (rhs, i) Hin) with (x := x) as (l' & Hl' & Hx); auto.
  - now rewrite ptop_nth.
  - eapply nth_error_In; eauto.
  - unfold clr_lk. now rewrite pnext_nth, Hn'.
  - eauto.
Qed.

(** lookaheads propagate along every transition *)
Definition propagated : Prop :=
  forall q X n A pr k x, tr q X n -> hasl q A pr k x -> nth_error (fst pr) k = Some X -> hasl n A pr (S k) x.

Lemma lalr_lr1c : propagated -> lr1c g start eof p0 sts (sfk_lalr p) clr_look.
Proof.
  intros HP. constructor.
  - apply lalr_c_start.
  - exact HP.
  - apply lalr_c_first.
  - intros q A pr k B i rhs x _. apply lalr_c_last.
Qed.
End P0.

(** C40 *)
Lemma lalr_resolve q row pos X : nth_error sts q = Some row -> In pos row -> ptop pos = Some X ->
  exists n row', sfk_lalr p (sym_filter row X) = Some n /\ nth_error sts n = Some row' /\
    forall x, In x (sym_filter row X) -> exists y, In y row' /\ no_look y = no_look x.
Proof.
  intros E Hin Ht.
  assert (In X (g_symbols g)) as HX by (eapply (ptop_symbols _ _ _ _ _ W Hg); eauto using lalr_vpos).
  destruct (lalr_find q row X E HX (filter_ne _ _ _ Hin Ht)) as (n & Hk).
  destruct (lalr_key _ _ Hk (filter_ne _ _ _ Hin Ht)) as (_ & c & Hc & Hb). exists n, c. split; auto. split; auto.
  intros x Hx. apply (proj1 (without_look_in c (no_look x))). apply Hb. constructor. apply without_look_in. eauto.
Qed.

(** the stored kernel of a transition *)
Lemma lalr_final (kernel : state T) n : sfk_lalr p kernel = Some n -> kernel <> [] ->
  exists fk, bm_get (wl kernel) (l_raws p) = Some fk /\ wl fk = wl kernel /\ bm_get fk (l_kernels p) = Some n.
Proof.
  unfold sfk_lalr. destruct (bm_get (wl kernel) (l_raws p)) as [k|] eqn:Hr; [|discriminate]. intros Hk N.
  exists k. split; auto. split; auto. exact (ro_wl _ _ _ _ _ (li_raw _ _ _ _ _ I _ _ Hr (wl_ne _ N))).
Qed.

(** every state is reached *)
Lemma lalr_pred q : 0 < q < length sts -> exists j X, j < q /\ tr j X q.
Proof.
  intros [Hq Hlt]. destruct (nth_error sts q) as [row|] eqn:E; [|apply nth_error_None in E; lia].
  destruct (lalr_row _ _ E) as (seed & Hs & [[-> _]|(_ & N & k & Hk & Hkn & j & row' & X & Hj & Ej & Eseed)]); [lia|].
  exists j, X. split; auto.
  assert (wl (sym_filter row' X) = seed) as Ew by (now rewrite without_look_filter).
  destruct (sym_filter row' X) as [|b kern] eqn:Ef.
  - exfalso. apply N. now rewrite <- Ew.
  - assert (In b (sym_filter row' X)) as Hb by (rewrite Ef; now left).
    apply sym_filter_in in Hb as (pos & Hpos & Et & _). exists row', pos. split; auto. split; auto. split; auto.
    unfold sfk_lalr. rewrite Ef, Ew, Hk. exact Hkn.
Qed.

Lemma lalr_look Q q A pr k x : Qok Q -> hasl q A pr k x -> Q A x.
Proof.
  intros HQ Hh. apply lalr_hasl in Hh as (row & l & E & Hin & Hx).
  destruct lalr_inv as (_ & _ & _ & _ & _ & HC & _). destruct (HC Q HQ) as [IQ _].
  destruct (li_V _ _ _ _ _ IQ _ _ _ E Hin) as [_ H]. exact (H x Hx).
Qed.
End Table.

Lemma lalr_total : exists N, forall fuel, N <= fuel -> exists r, lalr_with_table dbg fuel t = Val r.
Proof.
  destruct (lalr_closures_total dbg start eof rules g W Hg lk _ (clr_closure_ok g (t_first t)) (clr_lk_ok _ _ _ _ _ W Hg _ F)
    (Vq (fun _ _ => True)) (Vq_v _) (Vq_y _ Qtrue) (Vq_a _) (Vq_m _) (Vq_b _ Qtrue) rclosed (rclosed_c _) (rclosed_m _)) as (N & HN).
  exists N. intros fuel Hf. destruct (HN fuel Hf) as (p & E).
  unfold lalr_with_table. rewrite (tf_grammar _ _ _ _ _ _ F), E. cbn [bind].
  pose proof (lalr_closures_canon _ Qtrue _ _ E) as [I Hu].
  destruct (mapM_total (row_actions g clr_look (sfk_lalr p) (p_rule (g_basis g))) (l_states p)) as (acts & Ea).
  - intros row Hr. apply in_nth_error in Hr as (q & Hq). apply row_actions_total. intros pos Hpos. split.
    + intros X Ht. assert (q < length (l_states p)) as Hlt by (apply nth_error_Some; congruence).
      assert (vpos g pos) as Hv by (eapply Vq_v; exact (li_V _ _ _ _ _ I _ _ _ Hq Hpos)).
      assert (In X (g_symbols g)) as HX by (eapply (ptop_symbols _ _ _ _ _ W Hg); eauto).
      pose proof (filter_ne _ _ _ Hpos Ht) as N0.
      destruct (Hu q row X Hlt Hq HX N0) as (k & Hk). unfold sfk_lalr. rewrite Hk.
      destruct (li_raw _ _ _ _ _ I _ _ Hk (wl_ne _ N0)) as [_ _ _ (n' & row1 & A1 & _)]. eauto.
    + intros _. unfold clr_look. eauto.
  - unfold proc_actions. rewrite Ea. cbn [bind]. eauto.
Qed.

(** two useful relations *)
Lemma Qfollow : term rules eof -> Qok (fun A x => term rules x -> tin (t_follow t) A x).
Proof.
  intros He. constructor.
  - intros _. apply (tf_follow_complete _ _ _ _ _ _ F He). constructor.
  - intros A i u B Y v x Hp HB Hx Hter. apply (tf_follow_complete _ _ _ _ _ _ F He). eapply fr_first; eauto.
    eapply first_of_spec; eauto.
  - intros A i u B x Hp HB H Hter. eapply (tf_follow_last _ _ _ _ _ _ F); eauto.
Qed.

Lemma Qterm : term rules eof -> (forall A x, tin (t_first t) A x -> term rules x) -> Qok (fun _ x => term rules x).
Proof.
  intros He Hf. constructor; auto. intros A i u B Y v x Hp HB Hx. apply first_of_one in Hx as [[Hn ->]|Hx]; [|eauto].
  intros HY. apply (tf_first_keys _ _ _ _ _ _ F) in HY as (s & Hs). congruence.
Qed.
End LalrLR.
