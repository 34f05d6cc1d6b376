(** Drivers of Slr and Clr are the textbook's machines (C121). *)
From Coq Require Import List Bool Arith Lia.
From Verif Require Import BTree Model Base Spec SpecP Interface GrammarP FirstFollow Closure Canon ActTab LR Sound Complete Locality RunFacts CanonLR Prefix Merged Lalr LalrLR Agree Wrap Final Export LR1Spec ValidSpec Cores Handle HandleF Valid Pass.
Import ListNotations.

Section Auto.
Context {T : Type} {OT : Ord T}.
Variables (k : method) (g : grammar T) (start eof : T) (p0 : production T).
Variable sts : list (state T).
Variable sfk : state T -> option nat.
Variable lookf : position T -> res (bset T).
Variable acts : acttable T.
Notation rules := (g_rules g).
Notation has := (has sts).
Notation hasl := (hasl sts lookf).
Notation path := (path sts sfk).
Hypothesis L : lr0 g start eof p0 sts sfk lookf acts.
Hypothesis Hone : forall i rhs, prod_at rules start i rhs -> (rhs, i) = p0.
Hypothesis He : term rules eof.
Hypothesis Hprod : productive rules.
Hypothesis Hlook : forall q A pr p t, hasl q A pr p t -> term rules t.
Hypothesis Hreach : forall q, q < length sts -> exists qs Xs, path (q :: qs) Xs.
Hypothesis HE : forall q qs xs A i u x, path (q :: qs) xs -> hasl q A (u, i) (length u) x <-> completes k rules start eof (rev xs) A i u x.
Notation calls_for := (calls_for k rules start eof).

Definition shape (a : action T) (s : wish) : Prop :=
  match a, s with
  | Shift _, TShift => True
  | Reduce A pr, TReduce B i => A = B /\ snd pr = i
  | Acc, TAccept => True
  | _, _ => False
  end.

Lemma shape_fun a s s' : shape a s -> shape a s' -> s = s'.
Proof. destruct a as [| |A pr| |a b], s as [|B i|], s' as [|C j|]; simpl; intros H1 H2; try contradiction; auto. destruct H1, H2. congruence. Qed.

Lemma wish_entry q qs xs x s : path (q :: qs) xs -> term rules x -> calls_for (rev xs) x s ->
  (exists a, entry acts q x = Some a /\ shape a s) \/ conflicted acts q x.
Proof.
  intros P Hx [B j u v V|A i u N V|i u V].
  - apply (valid_has _ _ _ _ _ _ _ _ L Hone) in V as (q2 & qs2 & P2 & H). rewrite rev_involutive in P2.
    pose proof (path_fun _ _ _ _ P _ P2) as E. injection E as <- <-.
    assert (nth_error (fst (u ++ x :: v, j)) (length u) = Some x) as E by (cbn; rewrite nth_error_app2, Nat.sub_diag; auto).
    destruct (l_tr _ _ _ _ _ _ _ _ L _ _ _ _ _ H E) as (n & Ht).
    destruct (has_entry _ _ _ _ _ _ _ _ L _ _ _ _ _ _ H E Ht) as [F|F]; auto. left.
    apply is_terminal_term in Hx. rewrite Hx in F. eexists. split; [exact F|exact Logic.I].
  - apply (HE _ _ _ _ _ _ _ P) in V. destruct (hasl_entry _ _ _ _ _ _ _ _ L _ _ (u, i) _ V) as [F|F]; auto. left.
    eexists. split; [exact F|]. destruct (eqb_spec A start) as [E|_]; [contradiction|]. split; auto.
  - apply (HE _ _ _ _ _ _ _ P) in V. destruct (hasl_entry _ _ _ _ _ _ _ _ L _ _ (u, i) _ V) as [F|F]; auto. left.
    eexists. split; [exact F|]. destruct (eqb_spec start start) as [_|E]; [exact Logic.I|contradiction].
Qed.

Lemma has_shift q qs xs B pr p x : path (q :: qs) xs -> has q B pr p -> nth_error (fst pr) p = Some x -> calls_for (rev xs) x TShift.
Proof.
  intros P H E. apply (has_valid_after _ _ _ _ _ _ _ _ L Hprod _ _ _ _ _ _ P) in H. rewrite (skipn_nth_cons _ _ _ E) in H. econstructor; eauto.
Qed.

Lemma hasl_calls q qs xs A pr x : path (q :: qs) xs -> hasl q A pr (length (fst pr)) x ->
  calls_for (rev xs) x (if eqb A start then TAccept else TReduce A (snd pr)).
Proof.
  intros P H. destruct pr as [u i]. cbn [fst snd] in *. apply (HE _ _ _ _ _ _ _ P) in H.
  destruct (eqb_spec A start) as [->|N]; econstructor; eauto.
Qed.

Lemma entry_wish q qs xs x a : path (q :: qs) xs -> term rules x -> entry acts q x = Some a -> is_conflict a = false ->
  exists s, calls_for (rev xs) x s /\ shape a s.
Proof.
  intros P Hx E Hc. destruct a as [n|n|A pr| |a b]; try discriminate.
  - apply (entry_shift _ _ _ _ _ _ _ _ L) in E as [_ (row & [B pr p l] & K1 & K2 & K3 & _)]. rewrite ptop_nth in K3. exists TShift. split; [|exact Logic.I].
    apply (has_shift _ _ _ B pr p _ P); [exists row, l; auto|exact K3].
  - apply (entry_goto _ _ _ _ _ _ _ _ L) in E as [N _]. contradiction.
  - apply (entry_reduce _ _ _ _ _ _ _ _ L) in E as [N H]. apply (hasl_calls _ _ _ _ _ _ P) in H.
    destruct (eqb_spec A start); [contradiction|]. eexists. split; [exact H|]. split; auto.
  - apply (entry_acc _ _ _ _ _ _ _ _ L) in E as (pr & H). apply (hasl_calls _ _ _ _ _ _ P) in H.
    destruct (eqb_spec start start); [|contradiction]. eexists. split; [exact H|exact Logic.I].
Qed.

Lemma conflicted_two q qs xs x : path (q :: qs) xs -> conflicted acts q x -> exists s s', calls_for (rev xs) x s /\ calls_for (rev xs) x s' /\ s <> s'.
Proof.
  intros P Hc. destruct (conflict_items _ _ _ _ _ _ _ _ L Hlook Hreach _ _ Hc) as (_ & _ & _ & Ht & [(A & pr & B & pr' & HA & HB & N)|(A & pr & B & pr' & p & HA & HB & Hn)]).
  - pose proof (hasl_calls _ _ _ _ _ _ P HA) as CA. pose proof (hasl_calls _ _ _ _ _ _ P HB) as CB.
    destruct (l_valid _ _ _ _ _ _ _ _ L _ _ _ _ (hasl_has _ _ _ _ _ _ _ HA)) as [PA _].
    destruct (l_valid _ _ _ _ _ _ _ _ L _ _ _ _ (hasl_has _ _ _ _ _ _ _ HB)) as [PB _].
    do 2 eexists. split; [exact CA|]. split; [exact CB|]. destruct pr as [u i], pr' as [v j]. cbn [fst snd] in *.
    destruct (eqb_spec A start) as [->|NA]; destruct (eqb_spec B start) as [->|NB]; try discriminate.
    + exfalso. apply N. apply Hone in PA, PB. congruence.
    + intros [= <- <-]. apply N. pose proof (prod_at_fun _ _ _ _ _ PA PB). congruence.
  - pose proof (hasl_calls _ _ _ _ _ _ P HA) as CA. pose proof (has_shift _ _ _ _ _ _ _ P HB Hn) as CB.
    do 2 eexists. split; [exact CA|]. split; [exact CB|]. destruct (eqb A start); discriminate.
Qed.

(** a cell is filled iff a step is called for *)
Lemma entry_calls q qs xs x : path (q :: qs) xs -> (exists a, entry acts q x = Some a) <-> (exists s, calls_for (rev xs) x s).
Proof.
  intros P. split.
  - intros (a & E). destruct (nonterm_dec rules x) as [N|Hx].
    + destruct a as [n|n|A pr| |a b].
      * apply (entry_shift _ _ _ _ _ _ _ _ L) in E as [Hx _]. contradiction.
      * apply (entry_goto _ _ _ _ _ _ _ _ L) in E as [_ (row & [B pr p l] & K1 & K2 & K3 & _)]. rewrite ptop_nth in K3. exists TShift.
        apply (has_shift _ _ _ B pr p _ P); [exists row, l; auto|exact K3].
      * apply (entry_reduce _ _ _ _ _ _ _ _ L) in E as [_ H]. eexists. eapply (hasl_calls _ _ _ _ _ _ P H).
      * apply (entry_acc _ _ _ _ _ _ _ _ L) in E as (pr & H). eexists. eapply (hasl_calls _ _ _ _ _ _ P H).
      * destruct (conflicted_two _ _ _ x P) as (s & _ & H & _); [now exists a, b|]. now exists s.
    + destruct (is_conflict a) eqn:Ec.
      * destruct a; try discriminate. destruct (conflicted_two _ _ _ x P) as (s & _ & H & _); [do 2 eexists; exact E|]. now exists s.
      * destruct (entry_wish _ _ _ _ _ P Hx E Ec) as (s & H & _). now exists s.
  - intros (s & C). destruct (nonterm_dec rules x) as [N|Hx].
    + destruct C as [B j u v V|A i u _ V|i u V].
      * apply (valid_has _ _ _ _ _ _ _ _ L Hone) in V as (q2 & qs2 & P2 & H). rewrite rev_involutive in P2.
        pose proof (path_fun _ _ _ _ P _ P2) as E. injection E as <- <-.
        assert (nth_error (fst (u ++ x :: v, j)) (length u) = Some x) as E by (cbn; rewrite nth_error_app2, Nat.sub_diag; auto).
        destruct (l_tr _ _ _ _ _ _ _ _ L _ _ _ _ _ H E) as (n & Ht).
        destruct (has_entry _ _ _ _ _ _ _ _ L _ _ _ _ _ _ H E Ht) as [F|(a & b & F)]; eauto.
      * apply (HE _ _ _ _ _ _ _ P) in V. apply Hlook in V. contradiction.
      * apply (HE _ _ _ _ _ _ _ P) in V. apply Hlook in V. contradiction.
    + destruct (wish_entry _ _ _ _ _ P Hx C) as [(a & E & _)|(a & b & E)]; eauto.
Qed.

(** the table is free of conflicts iff the machine is deterministic *)
Lemma completes_valid pre A i u x : completes k rules start eof pre A i u x -> valid_after rules start pre A i u [].
Proof.
  destruct k; cbn; [now intros [V _]| |].
  - intros (P & a & w & R & Tw & E & _). split; auto. eauto.
  - intros (pre' & S & P & a & w & R & Tw & E & _). apply S. split; auto. eauto.
Qed.

Lemma calls_path pre x s : calls_for pre x s -> exists q qs, path (q :: qs) (rev pre).
Proof.
  assert (forall A i u v, valid_after rules start pre A i u v -> exists q qs, path (q :: qs) (rev pre)) as H.
  { intros A i u v V. apply (valid_has _ _ _ _ _ _ _ _ L Hone) in V as (q & qs & P & _). eauto. }
  intros [B j u v V|A i u N V|i u V]; eauto using completes_valid.
Qed.

Lemma clean_det : conflicts acts = [] <-> (forall pre x s s', term rules x -> calls_for pre x s -> calls_for pre x s' -> s = s').
Proof.
  split.
  - intros Hc pre x s s' Hx C C'. destruct (calls_path _ _ _ C) as (q & qs & P).
    assert (NC : ~ conflicted acts q x) by (eapply clean_no_conflict; eauto). rewrite <- (rev_involutive pre) in C, C'.
    destruct (wish_entry _ _ _ _ _ P Hx C) as [(a & E & Sh)|E]; [|contradiction].
    destruct (wish_entry _ _ _ _ _ P Hx C') as [(a' & E' & Sh')|E']; [|contradiction].
    rewrite E in E'. injection E' as <-. eapply shape_fun; eauto.
  - intros D. apply (no_conflict_clean _ _ _ _ _ _ _ _ L). intros q x Hc.
    destruct (conflict_items _ _ _ _ _ _ _ _ L Hlook Hreach _ _ Hc) as (qs & Xs & P & Hx & _).
    destruct (conflicted_two _ _ _ _ P Hc) as (s & s' & C & C' & N). apply N. eapply D; eauto.
Qed.

Lemma det_LALR1 : k = LALR -> (forall pre x s s', term rules x -> calls_for pre x s -> calls_for pre x s' -> s = s') <-> LALR1 rules start eof.
Proof.
  intros Ek.
  assert (ML : forall pre A i u x, merged_look rules start eof pre A i u x <-> completes k rules start eof pre A i u x).
  { rewrite Ek. intros pre A i u x. cbn. split.
    - intros (P & a & w & S & R & Tw & N). exists (a ++ u). split; auto. split; [now rewrite app_nil_r|]. exists a, w. auto.
    - intros (pre' & S & P & a & w & R & Tw & -> & N). rewrite app_nil_r in P. split; auto. exists a, w. auto. }
  assert (TM : forall pre A i u x, merged_look rules start eof pre A i u x -> term rules x).
  { intros pre A i u x (_ & a & w & _ & _ & Tw & <-). destruct Tw; auto. }
  split.
  - intros D. split.
    + intros pre A i u B j v x MA MB. pose proof (TM _ _ _ _ _ MA) as Hx.
      assert (PA : prod_at rules A i u) by apply MA. assert (PB : prod_at rules B j v) by apply MB. apply ML in MA, MB.
      destruct (eqb_spec A start) as [->|NA]; destruct (eqb_spec B start) as [->|NB].
      * apply Hone in PA, PB. split; congruence.
      * discriminate (D pre x TAccept (TReduce B j) Hx ltac:(econstructor; eauto) ltac:(econstructor; eauto)).
      * discriminate (D pre x (TReduce A i) TAccept Hx ltac:(econstructor; eauto) ltac:(econstructor; eauto)).
      * injection (D pre x (TReduce A i) (TReduce B j) Hx ltac:(econstructor; eauto) ltac:(econstructor; eauto)) as -> ->. auto.
    + intros pre A i u B j v x v' MA VB Hx. apply ML in MA.
      assert (calls_for pre x TShift) as C1 by (econstructor; eauto).
      destruct (eqb_spec A start) as [->|NA].
      * discriminate (D pre x TShift TAccept Hx C1 ltac:(econstructor; eauto)).
      * discriminate (D pre x TShift (TReduce A i) Hx C1 ltac:(econstructor; eauto)).
  - intros [D1 D2] pre x s s' Hx C C'.
    destruct C as [B j u v V|A i u N V|i u V]; destruct C' as [B' j' u' v' V'|A' i' u' N' V'|i' u' V']; auto;
    repeat match goal with H : completes _ _ _ _ _ _ _ _ _ |- _ => apply ML in H end;
    try (exfalso; eapply D2; eauto; fail).
    + destruct (D1 _ _ _ _ _ _ _ _ V V') as [-> ->]. reflexivity.
    + destruct (D1 _ _ _ _ _ _ _ _ V V') as [-> _]. contradiction.
    + destruct (D1 _ _ _ _ _ _ _ _ V V') as [<- _]. contradiction.
Qed.

Section Run.
Context {M : Type}.
Variable maps : reductmap T M.
Hypothesis Hcov : covers rules maps.
Notation sinv := (sinv eof sts sfk acts maps).
Notation terms := (terms g).

Lemma machine (d : dfa T M) : sinv d -> terms d -> d_finished d = false ->
  exists fuel d' o, travel fuel d (lookahead d) = Val (d', o) /\
   ((exists s s', calls_for (rev (map tk_ty (d_items d))) (lookahead d) s /\ calls_for (rev (map tk_ty (d_items d))) (lookahead d) s' /\ s <> s') /\ (exists a b, o = Err (ConflictErr a b)) \/
    (forall s, ~ calls_for (rev (map tk_ty (d_items d))) (lookahead d) s) /\ (exists es, o = Err (UnexpectedToken (lookahead d) es) /\ sorted es /\ forall y, In y es <-> exists s, calls_for (rev (map tk_ty (d_items d))) y s) \/
    (exists s, calls_for (rev (map tk_ty (d_items d))) (lookahead d) s /\ (forall s', calls_for (rev (map tk_ty (d_items d))) (lookahead d) s' -> s' = s) /\ does rules maps s d d' o)).
Proof.
  intros Hs Hter Hf. destruct (step_total' _ _ _ _ _ _ _ _ L maps d Hs (or_introl Hcov)) as (d' & o & (fuel & S) & SR).
  exists fuel, d', o. split; auto. clear S fuel.
  pose proof (terms_look g eof sts sfk acts maps He d Hs Hter) as Hx.
  pose proof (si_path _ _ _ _ _ _ Hs) as P. pose proof (si_top _ _ _ _ _ _ Hs) as Htop.
  destruct (d_states d) as [|q0 qs] eqn:Eqs; [discriminate|]. simpl in Htop. injection Htop as ->.
  set (xs := map tk_ty (d_items d)) in *. set (x := lookahead d) in *.
  assert (One : forall a s, entry acts (d_top d) x = Some a -> is_conflict a = false -> shape a s -> does rules maps s d d' o ->
    exists s, calls_for (rev xs) x s /\ (forall s', calls_for (rev xs) x s' -> s' = s) /\ does rules maps s d d' o).
  { intros a s E Hc Sh D. destruct (entry_wish _ _ _ _ _ P Hx E Hc) as (s0 & C0 & Sh0). rewrite (shape_fun _ _ _ Sh0 Sh) in C0.
    exists s. split; auto. split; auto. intros s' C'. destruct (wish_entry _ _ _ _ _ P Hx C') as [(a' & E' & Sh')|(a1 & a2 & E')].
    - rewrite E in E'. injection E' as <-. exact (shape_fun _ _ _ Sh' Sh).
    - rewrite E in E'. injection E' as ->. discriminate. }
  destruct SR as [tok rest n Eb E|n Eb E|n E|E Eb|E Eb|a b E|m E1 E2|A pr q n fs f E F1 F2 F3 F4 F5|A pr q a b fs f E F1 F2 F3 F5].
  - right. right. assert (x = tk_ty tok) as Ex by (unfold x, lookahead; now rewrite Eb). rewrite <- Ex in E.
    eapply (One _ TShift); eauto; [exact Logic.I|]. cbn. rewrite Eb. auto.
  - right. right. assert (x = eof) as Ex by (unfold x, lookahead; rewrite Eb; apply (si_eof _ _ _ _ _ _ Hs)). rewrite <- Ex in E.
    eapply (One _ TShift); eauto; [exact Logic.I|]. cbn. now rewrite Eb.
  - exfalso. apply (entry_goto _ _ _ _ _ _ _ _ L) in E as [N _]. contradiction.
  - right. right. eapply (One _ TAccept); eauto; [exact Logic.I|]. cbn. now rewrite Eb.
  - right. right. eapply (One _ TAccept); eauto; [exact Logic.I|]. cbn. destruct (d_buffer d); [congruence|auto].
  - left. split; [|eauto]. eapply conflicted_two; eauto. now exists a, b.
  - right. left. split.
    2: { exists (bm_keys m). split; auto. split.
      - pose proof E1 as E3. apply (row_spec' _ _ _ _ _ _ _ _ L) in E3 as (row & _ & Hok). apply Hok.
      - intros y. rewrite <- (entry_calls _ _ _ y P), <- bm_get_keys. unfold entry. now rewrite E1. }
    intros s C. assert (entry acts (d_top d) x = None) as EN by (unfold entry; now rewrite E1).
    destruct (wish_entry _ _ _ _ _ P Hx C) as [(a' & E' & Sh')|(a1 & a2 & E')]; congruence.
  - right. right. pose proof E as E0. apply (entry_reduce _ _ _ _ _ _ _ _ L) in E0 as [_ H]. apply hasl_has in H.
    destruct (l_valid _ _ _ _ _ _ _ _ L _ _ _ _ H) as [PA _].
    eapply (One _ (TReduce A (snd pr))); eauto; [split; auto|]. cbn. repeat split; auto. exists (fst pr), fs, f. auto.
  - exfalso. apply (entry_reduce _ _ _ _ _ _ _ _ L) in E as [_ H]. apply hasl_has in H.
    destruct (l_valid _ _ _ _ _ _ _ _ L _ _ _ _ H) as [PA _].
    destruct (conflict_items _ _ _ _ _ _ _ _ L Hlook Hreach q A) as (_ & _ & _ & Ht & _); [now exists a, b|]. apply Ht. eapply prod_nonterm; eauto.
Qed.
End Run.
End Auto.

Section TextbookF.
Context {T : Type} {OT : Ord T}.
Variables (dbg : bool) (start eof : T) (rules : rulemap T) (g : grammar T).
Hypothesis W : wf_rules rules.
Hypothesis Hg : grammar_new dbg start rules eof = Val g.

Lemma driver_textbook k t' : makes k dbg g t' -> k <> LALR \/ (hands_on t' /\ grounded rules start eof t') -> term rules eof -> dbg = true \/ single_start rules start -> dbg = true \/ only_terminals t' -> productive rules ->
  forall M (maps : reductmap T M) input d, covers rules maps -> Forall (term rules) (map tk_ty input) -> reaches t' input maps d -> d_finished d = false ->
  forall pre x, pre = rev (map tk_ty (d_items d)) -> x = lookahead d ->
  exists fuel d' o, travel fuel d x = Val (d', o) /\
   ((exists s s', calls_for k rules start eof pre x s /\ calls_for k rules start eof pre x s' /\ s <> s') /\ (exists a b, o = Err (ConflictErr a b)) \/
    (forall s, ~ calls_for k rules start eof pre x s) /\ (exists es, o = Err (UnexpectedToken x es) /\ sorted es /\ forall y, In y es <-> exists s, calls_for k rules start eof pre y s) \/
    (exists s, calls_for k rules start eof pre x s /\ (forall s', calls_for k rules start eof pre x s' -> s' = s) /\ does rules maps s d d' o)).
Proof.
  intros Hm Hk He Hs0 Ho Hp M maps input d Hcov Hi Hr Hfin pre x -> ->. pose proof (Er _ _ _ _ _ Hg) as ER.
  assert (single_start rules start) as Hs by (destruct Hs0; eauto using debug_single).
  destruct (makes_terminals _ _ _ _ _ W Hg _ _ Hm Ho) as (t & Ht & _ & _ & Hf & Hw). pose proof (tmakes_facts _ _ _ _ _ W Hg _ Ht) as F.
  destruct (makes_with _ _ _ _ _ W Hg _ _ _ Ht Hm) as (fm & Em). destruct (Wp0 _ _ _ _ _ W Hg) as (p0 & Hp0 & _).
  pose proof (one_start _ _ _ _ _ W Hg _ Hp0 Hs) as H2. pose proof (reaches_steps _ _ _ _ _ W Hg maps k t' Hm _ _ Hr) as Hst.
  destruct k.
  - pose proof (slr_lr0 _ _ _ _ _ W Hg _ F _ _ Em _ Hp0) as L.
    assert (Q : forall q A pr k x, hasl (t_states t') (slr_look (t_follow t)) q A pr k x -> term (g_rules g) x).
    { intros q A pr k x H. apply slr_hasl in H as [_ H]. rewrite ER. eauto. }
    destruct (follow_upper _ _ _ _ _ W Hg _ Ht He) as [U _].
    assert (U2 : forall q A pr p x, hasl (t_states t') (slr_look (t_follow t)) q A pr p x <-> has (t_states t') q A pr p /\ follow_rules rules start eof A x).
    { intros q A pr p x. rewrite slr_hasl. split; intros [K1 K2]; split; auto.
      - apply (tf_follow_sound _ _ _ _ _ _ F He Hf A x); auto. eauto.
      - now apply U. }
    destruct (items_valid _ _ _ _ _ W Hg _ _ Hm Hs0 Hp) as [HI _].
    rewrite <- ER in He, Hi, Hp, Hcov |- *. destruct (steps_vinv _ _ _ _ _ _ _ _ L He maps _ _ Hst Hi) as (Hsi & Hter & _).
    eapply (machine SLR _ _ _ _ _ _ _ _ L H2 He Hp Q (slr_reach _ _ _ _ _ W Hg _ _ _ F Em)); eauto.
    intros q qs xs A i u x P. rewrite U2, ER. unfold completes.
    rewrite <- (HI q qs xs), item_has, app_nil_r; [tauto|]. eapply path_moves; eauto.
  - pose proof (clr_lr0 _ _ _ _ _ W Hg _ F _ _ Em _ Hp0) as L.
    assert (Q : forall q A pr k x, hasl (t_states t') clr_look q A pr k x -> term (g_rules g) x).
    { intros q A pr k x H. rewrite ER. exact (clr_look_Q _ _ _ _ _ W Hg _ F _ _ _ _ _ _ _ _ Em (Qterm _ _ _ _ _ _ F He Hf) H). }
    pose proof (looks_valid _ _ _ _ _ W Hg _ Hm He Hs0 Ho Hp) as HI.
    rewrite <- ER in He, Hi, Hp, Hcov |- *. destruct (steps_vinv _ _ _ _ _ _ _ _ L He maps _ _ Hst Hi) as (Hsi & Hter & _).
    eapply (machine CLR _ _ _ _ _ _ _ _ L H2 He Hp Q (clr_reach _ _ _ _ _ W Hg _ _ _ F Em)); eauto.
    intros q qs xs A i u x P. rewrite ER. unfold completes. rewrite <- (HI q qs xs).
    2: { eapply path_moves; eauto. }
    rewrite clr_hasl. split.
    + intros (row & l & E & H & E4). exists row, (mkPos A (u, i) (length u) l). cbn. rewrite app_nil_r. auto 8.
    + intros (row & [A' pr p l] & E & H & E1 & E2 & E3 & E4). cbn in *. rewrite app_nil_r in E2. subst. eauto.
  - destruct Em as (p & Em). destruct (lalr_inv _ _ _ _ _ W Hg _ F _ _ _ Em) as (_ & _ & _ & E2 & _).
    pose proof (lalr_lr0 _ _ _ _ _ W Hg _ F _ _ _ Em _ Hp0) as L. pose proof (lalr_reach _ _ _ _ _ W Hg _ F _ _ _ Em) as Hreach.
    assert (Q : forall q A pr k x, hasl (l_states p) clr_look q A pr k x -> term (g_rules g) x).
    { intros q A pr k x H. rewrite ER. exact (lalr_look _ _ _ _ _ W Hg _ F _ _ _ Em _ _ _ _ _ _ (Qterm _ _ _ _ _ _ F He Hf) H). }
    assert (hands_on t' /\ grounded rules start eof t') as HG by tauto.
    pose proof (proj1 (proj2 (lalr_exact _ _ _ _ _ W Hg _ Hm He Hs0 Ho Hp)) HG) as HI.
    rewrite <- E2 in L, Hreach, Q.
    rewrite <- ER in He, Hi, Hp, Hcov |- *. destruct (steps_vinv _ _ _ _ _ _ _ _ L He maps _ _ Hst Hi) as (Hsi & Hter & _).
    eapply (machine LALR _ _ _ _ _ _ _ _ L H2 He Hp Q Hreach); eauto.
    intros q qs xs A i u x P. rewrite ER. unfold completes. rewrite <- (HI q qs xs).
    2: { eapply path_moves; eauto. }
    rewrite clr_hasl. split.
    + intros (row & l & E & H & E4). exists row, (mkPos A (u, i) (length u) l). cbn. rewrite app_nil_r. auto 8.
    + intros (row & [A' pr k l] & E & H & E1 & E3 & E4 & E5). cbn in *. rewrite app_nil_r in E3. subst. eauto.
Qed.

Lemma lalr_iff_LALR1 t' : makes LALR dbg g t' -> hands_on t' /\ grounded rules start eof t' -> term rules eof -> dbg = true \/ single_start rules start -> dbg = true \/ only_terminals t' -> productive rules ->
  (conflicts (t_actions t') = [] <-> LALR1 rules start eof).
Proof.
  intros Hm HG He Hs0 Ho Hp. pose proof (Er _ _ _ _ _ Hg) as ER.
  assert (single_start rules start) as Hs by (destruct Hs0; eauto using debug_single).
  destruct (makes_terminals _ _ _ _ _ W Hg _ _ Hm Ho) as (t & Ht & _ & _ & Hf & Hw). pose proof (tmakes_facts _ _ _ _ _ W Hg _ Ht) as F.
  destruct (makes_with _ _ _ _ _ W Hg _ _ _ Ht Hm) as (fm & p & Em). destruct (Wp0 _ _ _ _ _ W Hg) as (p0 & Hp0 & _).
  pose proof (one_start _ _ _ _ _ W Hg _ Hp0 Hs) as H2.
  destruct (lalr_inv _ _ _ _ _ W Hg _ F _ _ _ Em) as (_ & _ & _ & E2 & _).
  pose proof (lalr_lr0 _ _ _ _ _ W Hg _ F _ _ _ Em _ Hp0) as L. pose proof (lalr_reach _ _ _ _ _ W Hg _ F _ _ _ Em) as Hreach.
  assert (Q : forall q A pr k x, hasl (l_states p) clr_look q A pr k x -> term (g_rules g) x).
  { intros q A pr k x H. rewrite ER. exact (lalr_look _ _ _ _ _ W Hg _ F _ _ _ Em _ _ _ _ _ _ (Qterm _ _ _ _ _ _ F He Hf) H). }
  pose proof (proj1 (proj2 (lalr_exact _ _ _ _ _ W Hg _ Hm He Hs0 Ho Hp)) HG) as HI.
  rewrite <- E2 in L, Hreach, Q.
  assert (HE : forall q qs xs A i u x, path (t_states t') (sfk_lalr p) (q :: qs) xs -> hasl (t_states t') clr_look q A (u, i) (length u) x <-> completes LALR (g_rules g) start eof (rev xs) A i u x).
  { intros q qs xs A i u x P. rewrite ER. unfold completes. rewrite <- (HI q qs xs).
    2: { eapply path_moves; eauto. }
    rewrite clr_hasl. split.
    + intros (row & l & E & H & E4). exists row, (mkPos A (u, i) (length u) l). cbn. rewrite app_nil_r. auto 8.
    + intros (row & [A' pr k l] & E & H & E1 & E3 & E4 & E5). cbn in *. rewrite app_nil_r in E3. subst. eauto. }
  rewrite <- ER in He, Hp |- *. rewrite (clean_det LALR _ _ _ _ _ _ _ _ L H2 Hp Q Hreach HE).
  eapply det_LALR1; eauto.
Qed.
End TextbookF.
