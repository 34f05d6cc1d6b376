(** What a [Conflict] of Clr means (C119): the symbols on the stack and the next one leave two
    possibilities. *)
From Coq Require Import List Bool Arith Lia.
From Verif Require Import BTree Model Base Spec SpecP Interface GrammarP FirstFollow Closure Canon ActTab LR Sound Complete Locality RunFacts CanonLR Prefix Merged Lalr LalrLR Agree Wrap Final Export LR1Spec DilemmaSpec Handle HandleF.
Import ListNotations.

Section Auto.
Context {T : Type} {OT : Ord T}.
Variables (g : grammar T) (start eof : T) (p0 : production T).
Variable sts : list (state T).
Variable sfk : state T -> option nat.
Variable lookf : position T -> res (bset T).
Variable acts : acttable T.
Notation rules := (g_rules g).
Notation has := (has sts).
Notation hasl := (hasl sts lookf).
Notation path := (path sts sfk).
Hypothesis L : lr0 g start eof p0 sts sfk lookf acts.
Hypothesis Hone : forall i rhs, prod_at rules start i rhs -> (rhs, i) = p0.
Hypothesis C : lr1c g start eof p0 sts sfk lookf.
Hypothesis S1 : lr1s g start eof p0 sts sfk lookf.
Hypothesis He : term rules eof.
Hypothesis Hprod : productive rules.
Hypothesis Hlook : forall q A pr p t, hasl q A pr p t -> term rules t.
Hypothesis Hreach : forall q, q < length sts -> exists qs Xs, path (q :: qs) Xs.

Lemma conflict_dilemma q qs Xs t : path (q :: qs) Xs -> conflicted acts q t -> dilemma rules start eof (rev Xs) t.
Proof.
  intros P Hc. destruct (conflict_items _ _ _ _ _ _ _ _ L Hlook Hreach _ _ Hc) as (_ & _ & _ & Ht & [(A & pr & B & pr' & HA & HB & N)|(A & pr & B & pr' & p & HA & HB & Hn)]).
  - destruct (hasl_rsf _ _ _ _ _ _ _ _ L Hprod S1 Hlook _ _ _ _ _ _ _ P HA) as (a & w & Ra & Ea & Na).
    destruct (hasl_rsf _ _ _ _ _ _ _ _ L Hprod S1 Hlook _ _ _ _ _ _ _ P HB) as (b & x & Rb & Eb & Nb).
    rewrite firstn_all in Ea, Eb.
    destruct (l_valid _ _ _ _ _ _ _ _ L _ _ _ _ (hasl_has _ _ _ _ _ _ _ HA)) as [PA _].
    destruct (l_valid _ _ _ _ _ _ _ _ L _ _ _ _ (hasl_has _ _ _ _ _ _ _ HB)) as [PB _].
    exists a, A, (snd pr), (fst pr), w, b, B, (snd pr'), (fst pr'), [], x.
    repeat match goal with |- _ /\ _ => split end; eauto using rsf_rms, rsf_term.
    + now rewrite app_nil_r.
    + intros (_ & <- & E). apply N. rewrite <- E in PB. pose proof (prod_at_fun _ _ _ _ _ PA PB). destruct pr, pr'; simpl in *; congruence.
  - destruct (hasl_rsf _ _ _ _ _ _ _ _ L Hprod S1 Hlook _ _ _ _ _ _ _ P HA) as (a & w & Ra & Ea & Na).
    destruct (has_rsf _ _ _ _ _ _ _ _ L Hprod _ _ _ _ _ _ P HB) as (b & x & Rb & Eb).
    rewrite firstn_all in Ea. destruct (l_valid _ _ _ _ _ _ _ _ L _ _ _ _ (hasl_has _ _ _ _ _ _ _ HA)) as [PA _].
    destruct (l_valid _ _ _ _ _ _ _ _ L _ _ _ _ HB) as [PB _].
    destruct (productive_str g (skipn (S p) (fst pr')) Hprod) as (v & D & Tv). destruct (derives_trees _ _ _ D Tv) as (ts & Hts).
    destruct (proj2 (handle_below rules start) _ _ _ Hts b B x (snd pr') (firstn p (fst pr') ++ [t]) Rb) as (c & D' & j & rhs & x2 & u & K1 & K2 & K3 & K4 & K5).
    { rewrite <- app_assoc. cbn [app]. rewrite <- (skipn_nth_cons _ _ _ Hn), firstn_skipn. exact PB. }
    assert (exists z, u = z ++ x2) as (z & ->).
    { rewrite !app_assoc in K4. destruct (app_split _ _ _ _ K4) as [(z & _ & E)|(z & _ & E & Hz)]; [eauto|].
      exfalso. apply (f_equal (@length T)) in E. rewrite app_length in E. destruct z; [congruence|]. simpl in E. lia. }
    exists a, A, (snd pr), (fst pr), w, c, D', j, rhs, (t :: z), x2.
    repeat match goal with |- _ /\ _ => split end; eauto using rsf_rms, rsf_term.
    + simpl. constructor; auto.
    + apply (app_inv_tail x2). rewrite <- !app_assoc. rewrite K4, Eb, <- !app_assoc. reflexivity.
    + intros [[=] _].
Qed.

Lemma dilemma_conflict q qs Xs t : path (q :: qs) Xs -> dilemma rules start eof (rev Xs) t -> conflicted acts q t.
Proof.
  intros P (a & A & i & rhs & w & b & B & j & rhs' & z & x & R1 & P1 & T1 & E1 & N1 & R2 & P2 & T2 & E2 & N2 & N).
  assert (Forall (term rules) x) as Tx by now apply Forall_app in T2.
  apply rms_rsf in R1; auto; [|eapply prod_nonterm; eauto]. apply rms_rsf in R2; auto; [|eapply prod_nonterm; eauto].
  destruct (rsf_hasl _ _ _ _ _ _ _ _ L Hone C He _ _ _ R1 i rhs (length rhs) P1 (le_n _)) as (q1 & qs1 & Q1 & H1).
  destruct (rsf_hasl _ _ _ _ _ _ _ _ L Hone C He _ _ _ R2 j rhs' (length rhs') P2 (le_n _)) as (q2 & qs2 & Q2 & H2).
  rewrite firstn_all in Q1, Q2. rewrite <- E1, rev_involutive in Q1. pose proof (path_fun _ _ _ _ Q1 _ P) as EE. injection EE as -> ->.
  rewrite N1 in H1. destruct (hasl_entry _ _ _ _ _ _ _ _ L _ _ _ _ H1) as [F1|F1]; auto. rewrite E2 in Q2.
  destruct z as [|c z].
  - rewrite app_nil_r, rev_involutive in Q2. pose proof (path_fun _ _ _ _ Q2 _ P) as EE. injection EE as -> ->.
    cbn [app] in N2. rewrite N2 in H2. destruct (hasl_entry _ _ _ _ _ _ _ _ L _ _ _ _ H2) as [F2|F2]; auto.
    exfalso. apply N. rewrite F1 in F2. split; auto.
    destruct (eqb_spec A start) as [->|M1]; destruct (eqb_spec B start) as [->|M2]; try discriminate.
    + split; auto. pose proof (Hone _ _ P1). pose proof (Hone _ _ P2). congruence.
    + injection F2 as -> _ ->. auto.
  - cbn [app next hd] in N2. subst c. assert (term rules t) as Ht by (now apply Forall_inv in T2).
    apply (path_skip _ _ _ _ (length z)) in Q2.
    2: { rewrite rev_length, app_length. simpl. lia. }
    replace (skipn (length z) (rev (rev Xs ++ t :: z))) with (t :: Xs) in Q2.
    2: { rewrite rev_app_distr, rev_involutive. simpl. rewrite <- app_assoc, skipn_app, rev_length, Nat.sub_diag, skipn_all2; [reflexivity|now rewrite rev_length]. }
    inversion Q2 as [|q3 qs3 X1 Xs1 n P3 Htr]; subst. pose proof (path_fun _ _ _ _ P3 _ P) as EE. injection EE as -> ->.
    pose proof Htr as (row & [A' pr' p' l'] & K1 & K2 & K3 & K4). rewrite ptop_nth in K3.
    assert (has q A' pr' p') as Hh by (exists row, l'; auto).
    destruct (has_entry _ _ _ _ _ _ _ _ L _ _ _ _ _ _ Hh K3 Htr) as [F2|F2]; auto.
    apply is_terminal_term in Ht. rewrite Ht in F2. destruct (eqb A start); congruence.
Qed.

End Auto.

(** both possibilities are sentences beginning with what has been read *)
Lemma rms_derives {T} {OT : Ord T} (rules : rulemap T) u v : rms rules u v -> derives rules u v.
Proof.
  induction 1 as [|v w H IH Hm]; [constructor|]. inversion Hm as [a A i rhs x Hp Hx]; subst. eapply derives_trans; [exact IH|].
  apply derives_app; [constructor|]. change (A :: x) with ([A] ++ x). apply derives_app; [|constructor]. eapply derives_prod; eauto.
Qed.

Lemma dilemma_sentences {T} {OT : Ord T} (rules : rulemap T) start eof pre t u : dilemma rules start eof pre t -> derives rules pre u -> Forall (term rules) u ->
  (t = eof /\ sentence rules start u) \/ exists v, sentence rules start (u ++ t :: v).
Proof.
  intros (a & A & i & rhs & w & b & B & j & rhs' & z & x & R1 & P1 & T1 & E1 & N1 & R2 & P2 & T2 & E2 & N2 & N) D Tu.
  assert (sentence rules start (u ++ w)) as Hs.
  { split; [|now apply Forall_app]. eapply derives_trans; [exact (rms_derives _ _ _ R1)|]. eapply derives_trans.
    - apply derives_app; [constructor|]. change (A :: w) with ([A] ++ w). apply derives_app; [|constructor]. eapply derives_prod; eauto.
    - rewrite app_assoc, <- E1. apply derives_app; [exact D|constructor]. }
  destruct w as [|c w]; cbn in N1; subst; [left; rewrite app_nil_r in Hs; auto|eauto].
Qed.

Section DilemmaF.
Context {T : Type} {OT : Ord T}.
Variables (dbg : bool) (start eof : T) (rules : rulemap T) (g : grammar T).
Hypothesis W : wf_rules rules.
Hypothesis Hg : grammar_new dbg start rules eof = Val g.

Let Er : g_rules g = rules := proj1 (grammar_new_inv _ _ _ _ _ Hg).

Lemma conflict_exact t' : makes CLR dbg g t' -> term rules eof -> dbg = true \/ single_start rules start -> dbg = true \/ only_terminals t' -> productive rules ->
  forall M (maps : reductmap T M) input d, covers rules maps -> Forall (term rules) (map tk_ty input) -> reaches t' input maps d -> d_finished d = false ->
  ((exists fuel d' a b, travel fuel d (lookahead d) = Val (d', Err (ConflictErr a b))) <-> dilemma rules start eof (rev (map tk_ty (d_items d))) (lookahead d)).
Proof.
  intros Hm He Hs0 Ho Hp M maps input d Hcov Hi Hr Hfin.
  assert (single_start rules start) as Hs by (destruct Hs0; eauto using debug_single).
  destruct (makes_terminals _ _ _ _ _ W Hg _ _ Hm Ho) as (t & Ht & _ & _ & Hf & _). pose proof (tmakes_facts _ _ _ _ _ W Hg _ Ht) as F.
  destruct (makes_with _ _ _ _ _ W Hg _ _ _ Ht Hm) as (fm & Em). destruct (Wp0 _ _ _ _ _ W Hg) as (p0 & Hp0 & _).
  pose proof (clr_lr0 _ _ _ _ _ W Hg _ F _ _ Em _ Hp0) as L. pose proof (clr_lr1s _ _ _ _ _ W Hg _ F _ _ Em _ Hp0) as S1.
  pose proof (clr_lr1c _ _ _ _ _ W Hg _ F _ _ Em _ Hp0) as C. pose proof (one_start _ _ _ _ _ W Hg _ Hp0 Hs) as H2.
  assert (Q : forall q A pr k x, hasl (t_states t') clr_look q A pr k x -> term (g_rules g) x).
  { intros q A pr k x H. rewrite Er. exact (clr_look_Q _ _ _ _ _ W Hg _ F _ _ _ _ _ _ _ _ Em (Qterm _ _ _ _ _ _ F He Hf) H). }
  pose proof (clr_reach _ _ _ _ _ W Hg _ _ _ F Em) as R. pose proof (reaches_steps _ _ _ _ _ W Hg maps CLR t' Hm _ _ Hr) as Hst.
  rewrite <- Er in He, Hi, Hp, Hcov |- *. destruct (steps_vinv _ _ _ _ _ _ _ _ L He maps _ _ Hst Hi) as (Hsi & Hter & _).
  pose proof (si_path _ _ _ _ _ _ Hsi) as P. pose proof (si_top _ _ _ _ _ _ Hsi) as Htop.
  destruct (d_states d) as [|q0 qs] eqn:Eqs; [discriminate|]. simpl in Htop. injection Htop as ->.
  assert (NC : forall q x, conflicted (t_actions t') q x -> term (g_rules g) x).
  { intros q x Hc. destruct (conflict_items _ _ _ _ _ _ _ _ L Q R _ _ Hc) as (_ & _ & _ & Hx & _). exact Hx. }
  split.
  - intros (fuel & d' & a & b & E). eapply (conflict_dilemma _ _ _ _ _ _ _ _ L S1 Hp Q R); [exact P|].
    destruct (step_inv' _ _ _ _ _ _ _ _ L maps He _ _ _ Hsi Hter (ex_intro _ fuel E)) as [SR _].
    remember (Err (ConflictErr a b)) as o eqn:Eo.
    destruct SR as [| | | | |a' b' E1| | |A pr q a' b' fs f E1 E2 E3 E4 E5]; try discriminate Eo.
    + now exists a', b'.
    + exfalso. assert (conflicted (t_actions t') q A) as Hc by (now exists a', b'). apply NC in Hc. apply Hc.
      apply (entry_reduce _ _ _ _ _ _ _ _ L) in E1 as [_ E1]. eapply prod_nonterm. eapply (l_valid _ _ _ _ _ _ _ _ L). eapply hasl_has; eauto.
  - intros Hd. destruct (dilemma_conflict _ _ _ _ _ _ _ _ L H2 C He _ _ _ _ P Hd) as (a & b & E).
    destruct (step_total' _ _ _ _ _ _ _ _ L maps d Hsi (or_introl Hcov)) as (d' & o & (fuel & S) & SR).
    assert (exists a b, o = Err (ConflictErr a b)) as (a' & b' & ->).
    { clear S. destruct SR as [tok rest n Eb E1|n Eb E1| | | | |m E1 E2| |]; eauto; try congruence.
      - unfold lookahead in E. rewrite Eb in E. congruence.
      - unfold lookahead in E. rewrite Eb, (si_eof _ _ _ _ _ _ Hsi) in E. congruence.
      - unfold entry in E. rewrite E1 in E. congruence. }
    eauto 6.
Qed.

Lemma conflict_genuine t' : makes CLR dbg g t' -> term rules eof -> dbg = true \/ single_start rules start -> dbg = true \/ only_terminals t' -> productive rules ->
  forall M (maps : reductmap T M) used rest a b, covers rules maps -> Forall (term rules) (map tk_ty (used ++ rest)) ->
  fails t' (used ++ rest) maps rest (ConflictErr a b) ->
  exists pre, derives rules pre (map tk_ty used) /\ dilemma rules start eof pre (next eof (map tk_ty rest)) /\
    (next eof (map tk_ty rest) = eof /\ sentence rules start (map tk_ty used) \/ exists v, sentence rules start (map tk_ty used ++ next eof (map tk_ty rest) :: v)).
Proof.
  intros Hm He Hs Ho Hp M maps used rest a b Hcov Hi Hfail.
  apply (fails_runs _ _ _ _ _ W Hg maps CLR t' Hm) in Hfail as (d' & R & Hb).
  destruct (runs_steps _ _ R) as (d & S & _ & [[_ [=]]|(d2 & e2 & Ef & S2 & [= <- <-])]).
  assert (reaches t' (used ++ rest) maps d) as Hr.
  { eapply steps_reaches; eauto. constructor. apply (makes_dfa _ _ _ _ _ W Hg maps CLR t' Hm). }
  assert (d_buffer d = rest) as Ed.
  { rewrite <- Hb. apply stepsto_local in S2 as [([=] & _)|[E _]]. congruence. }
  exists (rev (map tk_ty (d_items d))).
  assert (dilemma rules start eof (rev (map tk_ty (d_items d))) (lookahead d)) as Hd.
  { apply (proj1 (conflict_exact _ Hm He Hs Ho Hp _ _ _ _ Hcov Hi Hr Ef)). destruct S2 as (fuel & S2). eauto 6. }
  destruct (Wp0 _ _ _ _ _ W Hg) as (p0 & Hp0 & _). destruct (makes_made _ _ _ _ _ W Hg _ _ _ Hm Hp0) as (sfk & lookf & X).
  pose proof (m_lr0 _ _ _ _ _ _ _ _ _ _ X) as L.
  assert (derives rules (rev (map tk_ty (d_items d))) (map tk_ty used) /\ Forall (term rules) (map tk_ty used) /\ d_eof d = eof) as (D & Tu & Ee).
  { rewrite <- Er in He, Hi |- *. destruct (steps_vinv _ _ _ _ _ _ _ _ L He maps _ _ S Hi) as (Hsi & Hter & used' & Eu & Hev).
    rewrite Ed in Eu. apply app_inv_tail in Eu as <-. apply (proj2 (evals_derives _ maps)) in Hev as [Hev Hv]. split; auto. split; auto. apply (si_eof _ _ _ _ _ _ Hsi). }
  assert (lookahead d = next eof (map tk_ty rest)) as El.
  { unfold lookahead. rewrite Ed, Ee. now destruct rest. }
  rewrite El in Hd. split; auto. split; auto.
  eapply dilemma_sentences; eauto.
Qed.
End DilemmaF.

(** an LR(1) grammar leaves no such choice *)
Lemma LR1_no_dilemma {T} {OT : Ord T} (rules : rulemap T) start eof : LR1 rules start eof -> forall pre t, ~ dilemma rules start eof pre t.
Proof.
  intros H pre t (a & A & i & rhs & w & b & B & j & rhs' & z & x & R1 & P1 & T1 & E1 & N1 & R2 & P2 & T2 & E2 & N2 & N).
  destruct (H a A i rhs w b B j rhs' x (z ++ x)) as (_ & E3 & E4 & E5); auto.
  - now apply Forall_app in T2.
  - rewrite !app_assoc, E2, E1, <- !app_assoc. reflexivity.
  - congruence.
  - apply N. split; auto. apply (f_equal (@length T)) in E5. rewrite app_length in E5. destruct z; auto. simpl in E5. lia.
Qed.
