(** The tables of Slr and Clr satisfy [lr0]; lookahead facts (C07, C08, C40). *)
From Coq Require Import List Bool Arith Lia.
From Verif Require Import BTree Model Base Spec SpecP GrammarP FirstFollow Closure Canon ActTab LR.
Import ListNotations.

(** ** lookahead facts: what completeness needs, and what exactness adds *)
Section LR1.
Context {T : Type} {OT : Ord T}.
Variables (g : grammar T) (start eof : T) (p0 : production T).
Variable sts : list (state T).
Variable sfk : state T -> option nat.
Variable lookf : position T -> res (bset T).
Notation rules := (g_rules g).
Notation has := (has sts).
Notation hasl := (hasl sts lookf).
Notation tr := (tr sts sfk).
Notation just := (just g start p0 sts).

Record lr1c : Prop := {
  c_start : hasl 0 start p0 0 eof;
  c_fwd : forall q X n A pr p t, tr q X n -> hasl q A pr p t -> nth_error (fst pr) p = Some X -> hasl n A pr (S p) t;
  c_first : forall q A pr p B Y i rhs t, has q A pr p -> nth_error (fst pr) p = Some B -> nth_error (fst pr) (S p) = Some Y ->
     prod_at rules B i rhs -> first_spec rules Y t -> hasl q B (rhs, i) 0 t;
  c_last : forall q A pr p B i rhs t, term rules t -> hasl q A pr p t -> nth_error (fst pr) p = Some B -> nth_error (fst pr) (S p) = None ->
     prod_at rules B i rhs -> hasl q B (rhs, i) 0 t
}.

Inductive justl : nat -> T -> production T -> nat -> T -> Prop :=
| jl_basis : justl 0 start p0 0 eof
| jl_kernel q A pr p t : hasl q A pr (S p) t -> justl q A pr (S p) t
| jl_first q A pr p B Y i rhs t : just q A pr p -> nth_error (fst pr) p = Some B -> nth_error (fst pr) (S p) = Some Y ->
     prod_at rules B i rhs -> first_spec rules Y t -> justl q B (rhs, i) 0 t
| jl_last q A pr p B i rhs t : justl q A pr p t -> nth_error (fst pr) p = Some B -> nth_error (fst pr) (S p) = None ->
     prod_at rules B i rhs -> justl q B (rhs, i) 0 t.

Record lr1s : Prop := {
  s_back : forall q X n A pr p t, tr q X n -> hasl n A pr (S p) t -> hasl q A pr p t;
  s_just : forall q A pr p t, term rules t -> hasl q A pr p t -> justl q A pr p t
}.

Lemma justl_inv0 q A pr t : justl q A pr 0 t ->
  (q = 0 /\ A = start /\ pr = p0 /\ t = eof) \/
  (exists A1 pr1 p1 Y, just q A1 pr1 p1 /\ nth_error (fst pr1) p1 = Some A /\ nth_error (fst pr1) (S p1) = Some Y /\
     prod_at rules A (snd pr) (fst pr) /\ first_spec rules Y t) \/
  (exists A1 pr1 p1, justl q A1 pr1 p1 t /\ nth_error (fst pr1) p1 = Some A /\ nth_error (fst pr1) (S p1) = None /\
     prod_at rules A (snd pr) (fst pr)).
Proof.
  intros J. remember 0 as z eqn:Ez in J at 1. destruct J; auto; [discriminate| |].
  - right. left. exists A, pr, p, Y. auto 6.
  - right. right. exists A, pr, p. auto.
Qed.
End LR1.

Section Clo.
Context {T : Type} {OT : Ord T}.
Variables (dbg : bool) (start eof : T) (p0 : production T) (rules : rulemap T) (g : grammar T).
Hypothesis W : wf_rules rules.
Hypothesis Hg : grammar_new dbg start rules eof = Val g.
Hypothesis Hp0 : g_basis g = mkPos start p0 0 [eof].
Hypothesis NE : noempty rules.
Variable lk : position T -> bset T.
Hypothesis Hl : lk_ok g lk.
Variables (ks : bmap (state T) nat) (sts : list (state T)).
Hypothesis HC : canon g lk ks sts.

Let Er : g_rules g = rules := proj1 (grammar_new_inv _ _ _ _ _ Hg).

Lemma canon_row q row : nth_error sts q = Some row -> exists seed,
  sorted row /\ (forall x, In x row <-> clo g lk seed x) /\
  ((q = 0 /\ seed = [g_basis g]) \/
   (q <> 0 /\ seed <> [] /\ bm_get seed ks = Some q /\ exists j row' X, j < q /\ nth_error sts j = Some row' /\ seed = sym_filter row' X)).
Proof.
  intros E. destruct HC as [C _]. destruct (Nat.eq_dec q 0) as [->|N].
  - destruct (ci_zero _ _ _ C) as (s0 & E0 & S0 & H0). cbn [snd] in E0. rewrite E in E0. injection E0 as <-.
    exists [g_basis g]. auto.
  - destruct (ci_sts _ _ _ C q) as (k & Nk & Hk).
    { simpl. split; [lia|]. apply nth_error_Some. congruence. }
    destruct (ci_ks _ _ _ C k q Hk Nk) as (_ & (c & Ec & Sc & Hc) & Hj). cbn [snd] in Ec. rewrite E in Ec. injection Ec as <-.
    exists k. split; auto. split; auto.
Qed.

Lemma canon_key (k : state T) n : bm_get k ks = Some n -> k <> [] ->
  0 < n /\ exists c, nth_error sts n = Some c /\ forall x, In x c <-> clo g lk k x.
Proof.
  intros Hk Nk. destruct HC as [C _]. destruct (ci_ks _ _ _ C k n Hk Nk) as (H0 & (c & Ec & Sc & Hc) & _).
  split; auto. exists c. auto.
Qed.

Lemma clo_point seed x : clo g lk seed x -> In x seed \/ p_point x = 0.
Proof. induction 1 as [|p q Hp IH (B & r & pr & _ & _ & _ & ->)]; auto. Qed.

Notation has := (has sts).
Notation tr := (tr sts (sfk_plain ks)).

Lemma canon_tr q X n : tr q X n -> exists row, nth_error sts q = Some row /\ bm_get (sym_filter row X) ks = Some n /\ sym_filter row X <> [] /\
   exists c, nth_error sts n = Some c /\ forall x, In x c <-> clo g lk (sym_filter row X) x.
Proof.
  intros (row & pos & H1 & H2 & H3 & H4). exists row. split; auto. unfold sfk_plain in H4. split; auto.
  assert (sym_filter row X <> []) as N.
  { intros E. assert (In (adv pos) (sym_filter row X)) as Hin by (apply sym_filter_in; eauto). rewrite E in Hin. destruct Hin. }
  split; auto. apply canon_key in H4 as [_ H4]; auto.
Qed.

Lemma nth_adv (p : position T) X A pr k l : ptop p = Some X -> adv p = mkPos A pr (S k) l -> p = mkPos A pr k l /\ nth_error (fst pr) k = Some X.
Proof.
  destruct p as [A' pr' k' l']. unfold adv. simpl. intros H [= -> -> -> ->]. rewrite ptop_nth in H. auto.
Qed.

Lemma canon_just q A pr p : has q A pr p -> just g start p0 sts q A pr p.
Proof.
  pose proof HC as [C HS].
  intros (row & l & E & Hin). destruct (canon_row _ _ E) as (seed & _ & Hs & Hq).
    apply Hs in Hin. remember (mkPos A pr p l) as x eqn:Ex. revert A pr p l Ex.
    induction Hin as [x Hx|x y Hx IH (B & r & pr & Et & Hr & Hpr & ->)]; intros A' pr' p' l' Ex.
    + destruct Hq as [[-> ->]|(_ & _ & _ & j & row' & X & _ & _ & ->)].
      * destruct Hx as [Hx|[]]. rewrite Hp0 in Hx. assert (A' = start /\ pr' = p0 /\ p' = 0) as (-> & -> & ->) by (split; [|split]; congruence).
        constructor.
      * subst x. pose proof Hx as Hx'. apply sym_filter_in in Hx' as (pos & _ & _ & Ea). unfold adv in Ea. injection Ea as E1 E2 E3 E4.
        subst p'. apply j_kernel. exists row, l'. split; auto. apply Hs. now constructor.
    + injection Ex as <- <- <- <-. destruct x as [A1 pr1 p1 l1]. rewrite ptop_nth in Et.
      destruct pr as [rhs i].
      eapply j_clo; [eapply IH; reflexivity|exact Et|]. rewrite Er in *. apply (wf_prod_in _ _ _ _ W Hr) in Hpr. exact Hpr.
Qed.

Lemma canon_lr0 lookf acts : proc_actions g lookf (sfk_plain ks) sts = Val acts ->
  lr0 g start eof p0 sts (sfk_plain ks) lookf acts.
Proof.
  intros Ha. pose proof HC as [C HS]. constructor; auto.
  - now rewrite Er.
  - now rewrite Er.
  - intros q A pr p (row & l & E & Hin). destruct (ci_vpos _ _ _ C q row _ E Hin) as [[H1 H2] _]. auto.
  - destruct (ci_zero _ _ _ C) as (s0 & E0 & S0 & H0). cbn [snd] in E0. exists s0, [eof]. split; auto. rewrite <- Hp0. apply H0.
    constructor. now left.
  - intros A pr p (row & l & E & Hin). destruct (canon_row _ _ E) as (seed & _ & Hs & [[_ ->]|[N _]]); [|congruence].
    apply Hs in Hin. apply clo_point in Hin as [[Hin|[]]|Hin]; auto. rewrite Hp0 in Hin. congruence.
  - intros q A pr p X (row & l & E & Hin) Hn. 
    assert (In X (g_symbols g)) as HX.
    { eapply ptop_symbols with (p := mkPos A pr p l); eauto; [|now rewrite ptop_nth]. exact (ci_vpos _ _ _ C q row _ E Hin). }
    destruct (HS q row X E HX) as (n & Hk). exists n, row, (mkPos A pr p l). rewrite ptop_nth. auto.
  - intros q X n Ht. apply canon_tr in Ht as (row & _ & _ & _ & c & Ec & _). apply nth_error_Some. congruence.
  - intros q X n A pr p Ht (row & l & E & Hin) Hn. apply canon_tr in Ht as (row' & E' & Hk & N & c & Ec & Hc).
    rewrite E in E'. injection E' as <-. exists c, l. split; auto. apply Hc. constructor.
    apply sym_filter_in. exists (mkPos A pr p l). rewrite ptop_nth. auto.
  - intros q X n A pr p Ht (row & l & E & Hin). apply canon_tr in Ht as (row' & E' & Hk & N & c & Ec & Hc).
    rewrite E in Ec. injection Ec as <-. apply Hc in Hin. apply clo_point in Hin as [Hin|Hin]; [|discriminate].
    apply sym_filter_in in Hin as (pos & Hpos & Et & Ea). symmetry in Ea. apply (nth_adv _ _ _ _ _ _ Et) in Ea as [-> Hn].
    split; auto. exists row', l. auto.
  - intros q A pr p B i rhs (row & l & E & Hin) Hn Hpr. destruct (canon_row _ _ E) as (seed & _ & Hs & _).
    exists row, (lk (mkPos A pr p l)). split; auto. apply Hs. apply Hs in Hin. eapply clo_yield; eauto.
    rewrite Er in Hpr. apply wf_prod_at in Hpr as (r & Hr & Hi); auto. exists B, r, (rhs, i).
    rewrite ptop_nth, Er. split; auto. split; auto. split; auto. eapply nth_error_In; eauto.
  - apply canon_just.
Qed.

Lemma canon_just_has q A pr p : just g start p0 sts q A pr p -> has q A pr p.
Proof.
  induction 1 as [|q A pr p H|q A pr p B i rhs J IHJ Hn Hpr]; auto.
  - destruct HC as [C _]. destruct (ci_zero _ _ _ C) as (s0 & E0 & S0 & H0). cbn [snd] in E0. exists s0, [eof]. split; auto. rewrite <- Hp0. apply H0.
    constructor. now left.
  - destruct IHJ as (row & l & E1 & Hin). destruct (canon_row _ _ E1) as (seed & _ & Hs & _).
    exists row, (lk (mkPos A pr p l)). split; auto. apply Hs. apply Hs in Hin. eapply clo_yield; eauto.
    rewrite Er in Hpr. apply wf_prod_at in Hpr as (r & Hr & Hi); auto. exists B, r, (rhs, i).
    rewrite ptop_nth, Er. split; auto. split; auto. split; auto. eapply nth_error_In; eauto.
Qed.

Lemma canon_pred q A pr p : has q A pr (S p) -> exists j, j < q /\ has j A pr p.
Proof.
  intros (row & l & E & Hin). destruct (canon_row _ _ E) as (seed & _ & Hs & Hq). apply Hs in Hin.
  apply clo_point in Hin as [Hin|Hin]; [|discriminate]. destruct Hq as [[-> ->]|(_ & _ & _ & j & row' & X & Hj & Ej & ->)].
  - destruct Hin as [Hin|[]]. rewrite Hp0 in Hin. discriminate.
  - apply sym_filter_in in Hin as (pos & Hpos & Et & Ea). symmetry in Ea. apply (nth_adv _ _ _ _ _ _ Et) in Ea as [-> Hn].
    exists j. split; auto. exists row', l. auto.
Qed.

(** each transition of the collection: C40 *)
Lemma canon_resolve q row pos X : nth_error sts q = Some row -> In pos row -> ptop pos = Some X ->
  exists n row', sfk_plain ks (sym_filter row X) = Some n /\ nth_error sts n = Some row' /\
    forall x, In x (sym_filter row X) -> In x row'.
Proof.
  intros E Hin Ht. destruct HC as [C HS].
  assert (In X (g_symbols g)) as HX by (eapply ptop_symbols; eauto; exact (ci_vpos _ _ _ C q row _ E Hin)).
  destruct (HS q row X E HX) as (n & Hk).
  assert (tr q X n) as Htr by (exists row, pos; auto).
  apply canon_tr in Htr as (row1 & E1 & Hk1 & N & c & Ec & Hc). rewrite E in E1. injection E1 as <-.
  exists n, c. split; auto. split; auto. intros x Hx. apply Hc. now constructor.
Qed.
End Clo.

Lemma nth_two {A} (l : list A) p x y : nth_error l p = Some x -> nth_error l (S p) = Some y ->
  exists u v, l = u ++ x :: y :: v.
Proof.
  revert p. induction l as [|z l IH]; intros [|p] H1 H2; simpl in *; try discriminate.
  - injection H1 as ->. destruct l as [|w l]; [discriminate|]. injection H2 as ->. exists [], l. auto.
  - destruct (IH p H1 H2) as (u & v & ->). exists (z :: u), v. auto.
Qed.

Lemma nth_last {A} (l : list A) p x : nth_error l p = Some x -> nth_error l (S p) = None -> exists u, l = u ++ [x].
Proof.
  revert p. induction l as [|z l IH]; intros [|p] H1 H2; simpl in *; try discriminate.
  - injection H1 as ->. destruct l as [|w l]; [|discriminate]. exists []. auto.
  - destruct (IH p H1 H2) as (u & ->). exists (z :: u). auto.
Qed.

(** ** the two generators *)
Section Gen.
Context {T : Type} {OT : Ord T}.
Variables (dbg : bool) (start eof : T) (rules : rulemap T) (g : grammar T).
Hypothesis W : wf_rules rules.
Hypothesis Hg : grammar_new dbg start rules eof = Val g.
Variable t : tabler T.
Hypothesis F : tabler_facts dbg start eof rules g t.

Let Er : g_rules g = rules := proj1 (grammar_new_inv _ _ _ _ _ Hg).

Lemma first_of_spec Y x : term rules x -> (In x (first_of (t_first t) [Y]) <-> first_spec rules Y x).
Proof.
  intros Hx. rewrite first_of_one. destruct (nonterm_dec rules Y) as [HY|HY].
  - pose proof HY as HY'. apply (tf_first_keys _ _ _ _ _ _ F) in HY' as (s & Es).
    rewrite (tf_first _ _ _ _ _ _ F Y x HY Hx). rewrite Es. split; auto. intros [[[=] _]|H]; auto.
  - rewrite first_term by auto. split.
    + intros [[_ ->]|(s & Es & _)]; auto. exfalso. apply HY. apply (tf_first_keys _ _ _ _ _ _ F). eauto.
    + intros ->. left. split; auto. destruct (bm_get Y (t_first t)) as [s|] eqn:Es; auto.
      exfalso. apply HY. apply (tf_first_keys _ _ _ _ _ _ F). eauto.
Qed.

Lemma clr_lk_ok : lk_ok g (clr_lk (t_first t)).
Proof.
  intros p Hv. unfold clr_lk. destruct (pnext p) as [Y|] eqn:Ey.
  - split; [apply first_of_one_sorted|]. intros x Hx. apply first_of_one in Hx as [[_ ->]|Hx].
    + destruct Hv as [[Hp _] _]. rewrite Er in Hp. eapply rhs_in_symbols; eauto. unfold pnext, peek in Ey. eapply nth_error_In; eauto.
    + apply (tf_first_rhs _ _ _ _ _ _ F) in Hx as (B & i & v & Hp). eapply rhs_in_symbols; eauto. now left.
  - destruct Hv as (_ & H1 & H2). auto.
Qed.

(** *** Clr *)
Section Clr.
Variable t' : tabler T.
Variable fuel : nat.
Hypothesis Ht' : clr_with_table dbg fuel t = Val t'.

Lemma clr_inv : t_grammar t' = g /\ t_first t' = t_first t /\ t_follow t' = t_follow t /\
  canon g (clr_lk (t_first t)) (t_kernels t') (t_states t') /\
  proc_actions g clr_look (sfk_plain (t_kernels t')) (t_states t') = Val (t_actions t').
Proof.
  unfold clr_with_table in Ht'. rewrite (tf_grammar _ _ _ _ _ _ F) in Ht'. apply bind_val in Ht' as ([ks sts] & H1 & H2).
  apply bind_val in H2 as (acts & H2 & [= <-]). simpl. split; auto. split; auto. split; auto. split; auto.
  eapply proc_closures_spec; eauto using clr_closure_ok, clr_lk_ok.
Qed.

Lemma pnext_nth A (pr : production T) p l : pnext (mkPos A pr p l) = nth_error (fst pr) (S p).
Proof. unfold pnext, peek. simpl. now rewrite Nat.add_1_r. Qed.

Section P0.
Variable p0 : production T.
Hypothesis Hp0 : g_basis g = mkPos start p0 0 [eof].

Lemma clr_lr0 : lr0 g start eof p0 (t_states t') (sfk_plain (t_kernels t')) clr_look (t_actions t').
Proof.
  destruct clr_inv as (_ & _ & _ & HC & Ha).
  eapply canon_lr0; eauto. exact (tf_noempty _ _ _ _ _ _ F).
Qed.

Lemma clr_hasl q A pr p x : hasl (t_states t') clr_look q A pr p x <->
  exists row l, nth_error (t_states t') q = Some row /\ In (mkPos A pr p l) row /\ In x l.
Proof.
  unfold hasl, clr_look. split.
  - intros (row & l & look & H1 & H2 & [= <-] & H3). eauto.
  - intros (row & l & H1 & H2 & H3). exists row, l, l. auto.
Qed.

Lemma clr_lr1c : lr1c g start eof p0 (t_states t') (sfk_plain (t_kernels t')) clr_look.
Proof.
  destruct clr_inv as (_ & _ & _ & HC & Ha). pose proof HC as [C _]. constructor.
  - apply clr_hasl. destruct (ci_zero _ _ _ C) as (s0 & E0 & _ & H0). cbn [snd] in E0. exists s0, [eof]. split; auto.
    split; [|now left]. apply H0. rewrite <- Hp0. constructor. now left.
  - intros q X n A pr p x Htr Hh Hn. apply clr_hasl in Hh as (row & l & E & Hin & Hx). apply clr_hasl.
    eapply canon_tr in Htr as (row' & E' & Hk & N & c & Ec & Hc); eauto.
    rewrite E in E'. injection E' as <-. exists c, l. split; auto. split; auto. apply Hc. constructor.
    apply sym_filter_in. exists (mkPos A pr p l). rewrite ptop_nth. auto.
  - intros q A pr p B Y i rhs x (row & l & E & Hin) Hn Hn' Hpr Hf. apply clr_hasl. pose proof E as E'.
    eapply canon_row in E' as (seed & _ & Hs & _); eauto.
    exists row, (clr_lk (t_first t) (mkPos A pr p l)). split; [auto|split].
    + apply Hs. apply Hs in Hin. eapply clo_yield; eauto. rewrite Er in Hpr. apply wf_prod_at in Hpr as (r & Hr & Hi); auto. exists B, r, (rhs, i).
      rewrite ptop_nth, Er. split; auto. split; auto. split; auto. eapply nth_error_In; eauto.
    + unfold clr_lk. rewrite pnext_nth, Hn'. apply first_of_spec; [|now rewrite <- Er]. destruct Hf. now rewrite <- Er.
  - intros q A pr p B i rhs x Hx Hh Hn Hn' Hpr. apply clr_hasl in Hh as (row & l & E & Hin & Hxl). apply clr_hasl. pose proof E as E'.
    eapply canon_row in E' as (seed & _ & Hs & _); eauto.
    exists row, (clr_lk (t_first t) (mkPos A pr p l)). split; [auto|split].
    + apply Hs. apply Hs in Hin. eapply clo_yield; eauto. rewrite Er in Hpr. apply wf_prod_at in Hpr as (r & Hr & Hi); auto. exists B, r, (rhs, i).
      rewrite ptop_nth, Er. split; auto. split; auto. split; auto. eapply nth_error_In; eauto.
    + unfold clr_lk. rewrite pnext_nth, Hn'. auto.
Qed.

Lemma clr_lr1s : lr1s g start eof p0 (t_states t') (sfk_plain (t_kernels t')) clr_look.
Proof.
  destruct clr_inv as (_ & _ & _ & HC & Ha). pose proof HC as [C _]. constructor.
  - intros q X n A pr p x Htr Hh. apply clr_hasl in Hh as (row & l & E & Hin & Hx). apply clr_hasl.
    eapply canon_tr in Htr as (row' & E' & Hk & N & c & Ec & Hc); eauto.
    rewrite E in Ec. injection Ec as <-. apply Hc in Hin. apply clo_point in Hin as [Hin|Hin]; [|discriminate].
    apply sym_filter_in in Hin as (pos & Hpos & Et & Ea). symmetry in Ea. apply (nth_adv _ _ _ _ _ _ Et) in Ea as [-> Hn].
    exists row', l. auto.
  - intros q A pr p x Hx Hh. apply clr_hasl in Hh as (row & l & E & Hin & Hxl). pose proof E as E'.
    eapply canon_row in E' as (seed & _ & Hs & Hq); eauto.
    apply Hs in Hin. remember (mkPos A pr p l) as y eqn:Ey. revert A pr p l Ey Hxl.
    induction Hin as [y Hy|y z Hy IH (B & r & pr & Et & Hr & Hpr & ->)]; intros A' pr' p' l' Ey Hxl.
    + destruct Hq as [[-> ->]|(_ & _ & _ & j & row' & X & _ & _ & ->)].
      * destruct Hy as [Hy|[]]. rewrite Hp0 in Hy. assert (A' = start /\ pr' = p0 /\ p' = 0 /\ l' = [eof]) as (-> & -> & -> & ->) by (repeat split; congruence).
        destruct Hxl as [<-|[]]. constructor.
      * subst y. pose proof Hy as Hy'. apply sym_filter_in in Hy' as (pos & _ & _ & Ea). unfold adv in Ea. injection Ea as E1 E2 E3 E4.
        subst p'. apply jl_kernel. apply clr_hasl. exists row, l'. split; auto. split; auto. apply Hs. now constructor.
    + injection Ey as <- <- <- <-. destruct y as [A1 pr1 p1 l1]. rewrite ptop_nth in Et.
      destruct pr as [rhs i]. assert (prod_at (g_rules g) B i rhs) as Hpr'.
      { rewrite Er in *. apply (wf_prod_in _ _ _ _ W Hr) in Hpr. exact Hpr. }
      unfold clr_lk in Hxl. rewrite pnext_nth in Hxl. destruct (nth_error (fst pr1) (S p1)) as [Y|] eqn:Ey.
      * eapply jl_first; eauto.
        -- apply (l_just _ _ _ _ _ _ _ _ clr_lr0). exists row, l1. split; [auto|]. apply (proj2 (Hs _)). exact Hy.
        -- rewrite Er in *. apply first_of_spec in Hxl; auto.
      * eapply jl_last; eauto.
Qed.
End P0.
End Clr.

(** *** totality *)
Lemma clr_total : exists N, forall fuel, N <= fuel -> exists t', clr_with_table dbg fuel t = Val t'.
Proof.
  exists (S (length (universe g) + kbound g)). intros fuel Hf. unfold clr_with_table. rewrite (tf_grammar _ _ _ _ _ _ F).
  destruct (proc_closures_total dbg start eof rules g W Hg (clr_lk (t_first t)) _ (clr_closure_ok g (t_first t)) clr_lk_ok fuel)
    as ([ks sts] & E); try lia.
  rewrite E. simpl. pose proof (proc_closures_spec dbg start eof rules g W Hg _ _ (clr_closure_ok g (t_first t)) clr_lk_ok _ _ _ E) as HC.
  destruct (mapM_total (row_actions g clr_look (sfk_plain ks) (p_rule (g_basis g))) sts) as (acts & Ea).
  - intros row Hr. apply in_nth_error in Hr as (q & Hq). apply row_actions_total. intros pos Hpos. split.
    + intros X Ht. eapply canon_resolve in Ht as (n & row' & H1 & _); eauto.
    + intros _. unfold clr_look. eauto.
  - unfold proc_actions. rewrite Ea. simpl. eauto.
Qed.

Lemma slr_total : exists N, forall fuel, N <= fuel -> exists t', slr_with_table dbg fuel t = Val t'.
Proof.
  exists (S (length (universe g) + kbound g)). intros fuel Hf. unfold slr_with_table. rewrite (tf_grammar _ _ _ _ _ _ F).
  destruct (proc_closures_total dbg start eof rules g W Hg slr_lk _ (slr_closure_ok g) (slr_lk_ok g) fuel)
    as ([ks sts] & E); try lia.
  rewrite E. simpl. pose proof (proc_closures_spec dbg start eof rules g W Hg _ _ (slr_closure_ok g) (slr_lk_ok g) _ _ _ E) as HC.
  destruct (grammar_new_inv _ _ _ _ _ Hg) as (Er2 & r0 & p0 & ps & Hp1 & Hp2 & Hp0 & Hp3).
  assert (K : forall q A pr p, just g start p0 sts q A pr p -> bm_mem A (t_follow t) = true).
  { induction q as [q IHq] using (well_founded_induction lt_wf).
    intros A pr p J. induction J as [|q A pr p Hh|q A pr p B i rhs J IHJ Hn Hpr].
    - apply (tf_follow_keys _ _ _ _ _ _ F). auto.
    - eapply canon_pred in Hh as (j & Hj & Hh); eauto. eapply IHq; eauto. eapply canon_just; eauto.
    - specialize (IHJ IHq). destruct (ord_dec B A) as [->|N]; auto. apply (tf_follow_keys _ _ _ _ _ _ F). right.
      assert (prod_at rules A (snd pr) (fst pr)) as HA.
      { assert (has sts q A pr p) as (row & l & E1 & Hin) by (eapply canon_just_has; eauto).
        destruct HC as [C _]. destruct (ci_vpos _ _ _ C q row _ E1 Hin) as [[H1 H2] _]. now rewrite Er in H1. }
      exists A, (snd pr), (fst pr). split; auto. split; [rewrite Er in Hpr; eapply prod_nonterm; eauto|].
      destruct (nth_error (fst pr) (S p)) as [Y|] eqn:Ey.
      + left. destruct (nth_two _ _ _ _ Hn Ey) as (u & v & Eu). eauto.
      + right. destruct (nth_last _ _ _ Hn Ey) as (u & Eu). eauto. }
  destruct (mapM_total (row_actions g (slr_look (t_follow t)) (sfk_plain ks) (p_rule (g_basis g))) sts) as (acts & Ea).
  - intros row Hr. apply in_nth_error in Hr as (q & Hq). apply row_actions_total. intros pos Hpos. split.
    + intros X Ht. eapply canon_resolve in Ht as (n & row' & H1 & _); eauto.
    + intros _. unfold slr_look. destruct pos as [A pr p l]. simpl.
      assert (bm_mem A (t_follow t) = true) as Hm.
      { eapply K. eapply canon_just; eauto. exists row, l. eauto. }
      unfold bm_mem in Hm. destruct (bm_get A (t_follow t)) as [s|]; [|discriminate]. simpl. eauto.
  - unfold proc_actions. rewrite Ea. simpl. eauto.
Qed.

(** *** Slr *)
Section Slr.
Variable t' : tabler T.
Variable fuel : nat.
Hypothesis Ht' : slr_with_table dbg fuel t = Val t'.

Lemma slr_inv : t_grammar t' = g /\ t_first t' = t_first t /\ t_follow t' = t_follow t /\
  canon g slr_lk (t_kernels t') (t_states t') /\
  proc_actions g (slr_look (t_follow t)) (sfk_plain (t_kernels t')) (t_states t') = Val (t_actions t').
Proof.
  unfold slr_with_table in Ht'. rewrite (tf_grammar _ _ _ _ _ _ F) in Ht'. apply bind_val in Ht' as ([ks sts] & H1 & H2).
  apply bind_val in H2 as (acts & H2 & [= <-]). simpl. split; auto. split; auto. split; auto. split; auto.
  eapply proc_closures_spec; eauto using slr_closure_ok, slr_lk_ok.
Qed.

Section P0.
Variable p0 : production T.
Hypothesis Hp0 : g_basis g = mkPos start p0 0 [eof].

Lemma slr_lr0 : lr0 g start eof p0 (t_states t') (sfk_plain (t_kernels t')) (slr_look (t_follow t)) (t_actions t').
Proof.
  destruct slr_inv as (_ & _ & _ & HC & Ha).
  eapply canon_lr0; eauto. exact (tf_noempty _ _ _ _ _ _ F).
Qed.

Lemma slr_hasl q A pr p x : hasl (t_states t') (slr_look (t_follow t)) q A pr p x <->
  has (t_states t') q A pr p /\ tin (t_follow t) A x.
Proof.
  unfold hasl, slr_look, has, tin. simpl. split.
  - intros (row & l & look & H1 & H2 & H3 & H4). apply expect_val in H3. eauto 8.
  - intros ((row & l & H1 & H2) & s & H3 & H4). exists row, l, s. rewrite H3. auto.
Qed.

Lemma slr_lr1c : term rules eof -> lr1c g start eof p0 (t_states t') (sfk_plain (t_kernels t')) (slr_look (t_follow t)).
Proof.
  intros Heof. pose proof slr_lr0 as L. constructor.
  - apply slr_hasl. split; [apply (l_start _ _ _ _ _ _ _ _ L)|].
    apply (tf_follow_complete _ _ _ _ _ _ F Heof). constructor.
  - intros q X n A pr p x Htr Hh Hn. apply slr_hasl in Hh as [Hh Hx]. apply slr_hasl. split; auto.
    eapply (l_fwd _ _ _ _ _ _ _ _ L); eauto.
  - intros q A pr p B Y i rhs x Hh Hn Hn' Hpr Hf. apply slr_hasl. split; [eapply (l_clo _ _ _ _ _ _ _ _ L); eauto|].
    apply (tf_follow_complete _ _ _ _ _ _ F Heof). destruct (nth_two _ _ _ _ Hn Hn') as (u & v & Eu).
    apply (l_valid _ _ _ _ _ _ _ _ L) in Hh as [Hh _]. rewrite Er in *. rewrite Eu in Hh. eapply fr_first; eauto.
    eapply prod_nonterm; eauto.
  - intros q A pr p B i rhs x Hx Hh Hn Hn' Hpr. apply slr_hasl in Hh as [Hh Hxf]. apply slr_hasl.
    split; [eapply (l_clo _ _ _ _ _ _ _ _ L); eauto|]. destruct (nth_last _ _ _ Hn Hn') as (u & Eu).
    apply (l_valid _ _ _ _ _ _ _ _ L) in Hh as [Hh _]. rewrite Er in *. rewrite Eu in Hh.
    eapply (tf_follow_last _ _ _ _ _ _ F); eauto. eapply prod_nonterm; eauto.
Qed.
End P0.
End Slr.
End Gen.
