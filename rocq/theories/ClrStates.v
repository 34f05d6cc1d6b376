(** How many states Slr and Clr can have; states of Clr that hold the same LR(1) items (C128, C130) *)
From Coq Require Import List Bool Arith Lia.
From Verif Require Import BTree Model Base Spec SpecP GrammarP FirstFollow Closure Canon ActTab LR CanonLR Interface StatesSpec StatesP Wrap Final Dead Cores WorkStates Sound Lalr LalrLR Agree Export LR1Spec ValidSpec Valid CanonSpec.
Import ListNotations.

Section Count.
Context {T : Type} {OT : Ord T}.
Variables (dbg : bool) (start eof : T) (rules : rulemap T) (g : grammar T).
Hypothesis W : wf_rules rules.
Hypothesis Hg : grammar_new dbg start rules eof = Val g.

Lemma canon_looks lk ks sts (P : bset T -> Prop) : canon g lk ks sts -> P [eof] ->
  (forall q row p B, nth_error sts q = Some row -> In p row -> ptop p = Some B -> nonterm rules B -> P (p_look p) -> P (lk p)) ->
  forall q row p, nth_error sts q = Some row -> In p row -> P (p_look p).
Proof.
  intros HC He Hl q. induction q as [q IH] using (well_founded_induction lt_wf). intros row p E Hp.
  pose proof E as E'. eapply canon_row in E' as (seed & _ & Hs & Hq); eauto.
  assert (Sd : forall x, In x seed -> P (p_look x)).
  { intros x Hx. destruct Hq as [[-> ->]|(_ & _ & _ & j & row' & X & Lj & Ej & ->)].
    - destruct Hx as [<-|[]]. destruct (Wp0 _ _ _ _ _ W Hg) as (p0 & -> & _). exact He.
    - apply sym_filter_in in Hx as (y & Hy & _ & ->). cbn. eapply (IH j); eauto. }
  apply Hs in Hp. induction Hp as [x Hx|x y Hx IHx (B & r & pr & Et & Hr & Hpr & ->)]; auto.
  cbn [p_look]. eapply (Hl q row x B); eauto; [now apply Hs|]. rewrite (Wr _ _ _ _ _ Hg) in Hr. exists r. auto.
Qed.

(** states with the same positions past the beginning are one *)
Lemma canon_same lk ks sts i j row row' : canon g lk ks sts -> nth_error sts i = Some row -> nth_error sts j = Some row' ->
  (forall pos, 0 < p_point pos -> (In pos row <-> In pos row')) -> i = j.
Proof.
  intros HC Ei Ej K0. pose proof HC as [C _].
  assert (Ex : forall i row, nth_error sts i = Some row -> exists kernel, bm_get kernel ks = Some i).
  { intros [|k] r Hk; [exists []; apply (ci_nil _ _ _ C)|]. destruct (ci_sts _ _ _ C (S k)) as (kn & _ & Hkn); [|eauto].
    assert (S k < length sts) by (apply nth_error_Some; congruence). cbn [snd]. lia. }
  assert (K : forall pos, In pos row /\ 0 < p_point pos <-> In pos row' /\ 0 < p_point pos).
  { intros pos. split; intros [H1 H2]; split; auto; now apply K0. }
  destruct (Ex i _ Ei) as (k1 & H1), (Ex j _ Ej) as (k2 & H2).
  destruct (Nat.eq_dec i 0) as [->|Ni], (Nat.eq_dec j 0) as [->|Nj]; auto.
  - exfalso. destruct (canon_key _ _ _ _ _ _ HC H2 Nj) as (r & E' & Kj & Ne). assert (r = row') as -> by congruence. destruct k2 as [|b l]; [easy|].
    destruct (proj2 (K b)) as [Hb Hz]; [apply Kj; now left|]. rewrite (canon_zero _ _ _ _ _ W Hg _ _ _ _ _ HC Ei Hb) in Hz. lia.
  - exfalso. destruct (canon_key _ _ _ _ _ _ HC H1 Ni) as (r & E' & Ki & Ne). assert (r = row) as -> by congruence. destruct k1 as [|b l]; [easy|].
    destruct (proj1 (K b)) as [Hb Hz]; [apply Ki; now left|]. rewrite (canon_zero _ _ _ _ _ W Hg _ _ _ _ _ HC Ej Hb) in Hz. lia.
  - destruct (canon_key _ _ _ _ _ _ HC H1 Ni) as (r1 & E1 & K1 & _). destruct (canon_key _ _ _ _ _ _ HC H2 Nj) as (r2 & E2 & K2 & _).
    assert (r1 = row) as -> by congruence. assert (r2 = row') as -> by congruence.
    assert (k1 = k2) as <-; [|congruence]. apply sorted_ext; eauto using canon_sorted. intros b. rewrite K1, K2. apply K.
Qed.

Definition mark2 (row : state T) (u : T * nat * nat * bset T) : bool :=
  existsb (fun pos => eqb (p_rule pos) (fst (fst (fst u))) && Nat.eqb (snd (p_seq pos)) (snd (fst (fst u))) && Nat.eqb (p_point pos) (snd (fst u)) &&
     if list_eq_dec ord_dec (p_look pos) (snd u) then true else false) row.
Lemma mark2_iff row A i p l : mark2 row (A, i, p, l) = true <-> exists rhs, In (mkPos A (rhs, i) p l) row.
Proof.
  unfold mark2. rewrite existsb_exists. cbn [fst snd]. split.
  - intros ([A' [rhs i'] p' l'] & H & E). cbn [p_rule p_seq p_point p_look snd] in E. apply andb_true_iff in E as (E & E4). apply andb_true_iff in E as (E & E3). apply andb_true_iff in E as (E1 & E2).
    apply eqb_eq in E1. apply Nat.eqb_eq in E2, E3. destruct (list_eq_dec ord_dec l' l); [|discriminate]. subst. eauto.
  - intros (rhs & H). eexists. split; [exact H|]. cbn [p_rule p_seq p_point p_look snd]. rewrite eqb_refl, !Nat.eqb_refl. destruct (list_eq_dec ord_dec l l); auto.
Qed.

Lemma canon_count lk ks sts sfk lookf acts p0 (Ls : list (bset T)) : canon g lk ks sts -> lr0 g start eof p0 sts sfk lookf acts -> In [eof] Ls ->
  (forall q row p B, nth_error sts q = Some row -> In p row -> ptop p = Some B -> nonterm rules B -> In (p_look p) Ls -> In (lk p) Ls) ->
  forall U, (forall A i rhs p, prod_at rules A i rhs -> 0 < p <= length rhs -> In (A, i, p) U) -> length sts <= 2 ^ (length U * length Ls).
Proof.
  intros HC L He Hl U HU. pose proof (Wr _ _ _ _ _ Hg) as Er. pose proof (canon_looks _ _ _ (fun l => In l Ls) HC He Hl) as HL.
  rewrite <- prod_length, <- codes_length, <- (map_length (fun row => map (mark2 row) (list_prod U Ls)) sts). apply NoDup_incl_length.
  - apply NoDup_nth_error. intros i j Li E. rewrite map_length in Li. rewrite !nth_error_map in E.
    destruct (nth_error sts i) as [row|] eqn:Ei; [|apply nth_error_None in Ei; lia]. destruct (nth_error sts j) as [row'|] eqn:Ej; [|discriminate].
    assert (Lj : j < length sts) by (apply nth_error_Some; congruence).
    cbn [option_map] in E. injection E as E.
    assert (forall u, In u (list_prod U Ls) -> mark2 row u = mark2 row' u) as Eu.
    { clear - E. induction (list_prod U Ls) as [|v V IH]; [intros u []|]. cbn [map] in E. injection E as E0 E1. intros u [<-|Hu]; auto. }
    assert (Gen : forall q q' row row', nth_error sts q = Some row -> nth_error sts q' = Some row' -> (forall u, In u (list_prod U Ls) -> mark2 row u = mark2 row' u) ->
      forall pos, In pos row -> 0 < p_point pos -> In pos row').
    { clear - L HU Er HL. intros q q' row row' E E' Eu [A [rhs i] p l] Hp Hz. cbn [p_point] in Hz.
      destruct (l_valid _ _ _ _ _ _ _ _ L q A (rhs, i) p) as (V1 & V2); [exists row, l; auto|]. cbn [fst snd] in *. rewrite Er in V1.
      assert (mark2 row' (A, i, p, l) = true) as Hk.
      { rewrite <- Eu; [apply mark2_iff; eauto|]. apply in_prod; [eapply HU; [exact V1|lia]|exact (HL _ _ _ E Hp)]. }
      apply mark2_iff in Hk as (rhs' & Hk). destruct (l_valid _ _ _ _ _ _ _ _ L q' A (rhs', i) p) as (V3 & _); [exists row', l; auto|].
      cbn [fst snd] in V3. rewrite Er in V3. now rewrite (prod_at_fun' _ _ _ _ _ V1 V3). }
    eapply canon_same; eauto. intros pos Hz. split; intros H; [eapply (Gen i j); eauto|eapply (Gen j i); eauto]. intros u Hu. symmetry. auto.
  - intros c Hc. apply in_map_iff in Hc as (row & <- & _). rewrite <- (map_length (mark2 row) (list_prod U Ls)). apply codes_in.
Qed.

(** Slr: two lookahead sets occur; Clr: the end marker's, and one for each symbol *)
Lemma slr_count t : makes SLR dbg g t -> forall U, (forall A i rhs p, prod_at rules A i rhs -> 0 < p <= length rhs -> In (A, i, p) U) ->
  length (t_states t) <= 2 ^ (length U * 2).
Proof.
  intros Hm U HU. destruct (makes_tabler _ _ _ _ _ W Hg _ _ Hm) as (tb & _ & F & fm & Em). destruct (Wp0 _ _ _ _ _ W Hg) as (p0 & Hp0 & _).
  destruct (slr_inv _ _ _ _ _ W Hg _ F _ _ Em) as (_ & _ & _ & HC & _).
  change 2 with (length [[eof]; []]) at 2. eapply canon_count; eauto; [exact (slr_lr0 _ _ _ _ _ W Hg _ F _ _ Em _ Hp0)|now left|]. intros q row p B _ _ _ _ _. right. now left.
Qed.
Lemma clr_count t : makes CLR dbg g t -> forall U, (forall A i rhs p, prod_at rules A i rhs -> 0 < p <= length rhs -> In (A, i, p) U) ->
  length (t_states t) <= 2 ^ (length U * S (length (g_symbols g))).
Proof.
  intros Hm U HU. destruct (makes_tabler _ _ _ _ _ W Hg _ _ Hm) as (tb & _ & F & fm & Em). destruct (Wp0 _ _ _ _ _ W Hg) as (p0 & Hp0 & _).
  destruct (clr_inv _ _ _ _ _ W Hg _ F _ _ Em) as (_ & _ & _ & HC & _). pose proof (clr_lr0 _ _ _ _ _ W Hg _ F _ _ Em _ Hp0) as L.
  rewrite <- (map_length (fun X => first_of (t_first tb) [X]) (g_symbols g)).
  change (S (length (map (fun X => first_of (t_first tb) [X]) (g_symbols g)))) with (length ([eof] :: map (fun X => first_of (t_first tb) [X]) (g_symbols g))).
  eapply canon_count; eauto; [now left|]. intros q row [A pr p l] B E Hp _ _ Hl. unfold clr_lk. destruct (pnext _) as [Y|] eqn:Ey; auto. right. apply in_map_iff. exists Y. split; auto.
  destruct (l_valid _ _ _ _ _ _ _ _ L q A pr p) as (V1 & V2); [exists row, l; auto|]. rewrite (Wr _ _ _ _ _ Hg) in V1. eapply rhs_in_symbols; eauto.
  unfold pnext, peek in Ey. eapply nth_error_In; eauto.
Qed.
End Count.

Section Same.
Context {T : Type} {OT : Ord T}.
Variables (dbg : bool) (start eof : T) (rules : rulemap T) (g : grammar T).
Hypothesis W : wf_rules rules.
Hypothesis Hg : grammar_new dbg start rules eof = Val g.

Lemma same_lr1_sym (t : tabler T) q q' : same_lr1 t q q' -> same_lr1 t q' q.
Proof. intros [H1 H2]. split; intros; symmetry; auto. Qed.

Lemma look_hasl (t : tabler T) q A i u v x : item_look t q A i u v x <-> hasl (t_states t) clr_look q A (u ++ v, i) (length u) x.
Proof.
  rewrite clr_hasl. split.
  - intros (row & [A' pr p l] & E & H & E1 & E2 & E3 & E4). cbn in *. subst. eauto.
  - intros (row & l & E & H & E4). exists row, (mkPos A (u ++ v, i) (length u) l). cbn. auto 8.
Qed.

Lemma into (p0 : production T) sts sfk acts : lr0 g start eof p0 sts sfk clr_look acts -> lr1c g start eof p0 sts sfk clr_look -> lr1s g start eof p0 sts sfk clr_look ->
  (forall q A pr p x, hasl sts clr_look q A pr p x -> term (g_rules g) x) ->
  forall q q' X n n', tr sts sfk q X n -> tr sts sfk q' X n' ->
  (forall A pr p, has sts q A pr p -> has sts q' A pr p) -> (forall A pr p x, hasl sts clr_look q A pr p x -> hasl sts clr_look q' A pr p x) ->
  (forall A pr p, has sts n A pr p -> has sts n' A pr p) /\ (forall A pr p x, hasl sts clr_look n A pr p x -> hasl sts clr_look n' A pr p x).
Proof.
  intros L C S1 Q q q' X n n' Ht Ht' H1 H2.
  assert (Nz : n <> 0).
  { intros ->. pose proof Ht as (row & [A pr p l] & E & Hi & Hd & _). rewrite ptop_nth in Hd. assert (has sts 0 A pr (S p)) as Hh.
    { eapply (l_fwd _ _ _ _ _ _ _ _ L); eauto. exists row, l. auto. }
    apply (l_zero _ _ _ _ _ _ _ _ L) in Hh. lia. }
  assert (H3 : forall A pr p, has sts n A pr p -> has sts n' A pr p).
  { intros A pr p Hh. apply (l_just _ _ _ _ _ _ _ _ L) in Hh. remember n as m eqn:Em. induction Hh as [|m A pr p Hk|m A pr p B i rhs Hj IH E1 E2].
    - congruence.
    - subst m. apply (l_back _ _ _ _ _ _ _ _ L _ _ _ _ _ _ Ht) in Hk as [Hk E]. eapply (l_fwd _ _ _ _ _ _ _ _ L); eauto.
    - eapply (l_clo _ _ _ _ _ _ _ _ L); eauto. }
  split; auto. intros A pr p x Hh. pose proof (Q _ _ _ _ _ Hh) as Tx. apply (s_just _ _ _ _ _ _ _ S1) in Hh; auto.
  remember n as m eqn:Em. induction Hh as [|m A pr p x Hk|m A pr p B Y i rhs x Hj E1 E2 E3 E4|m A pr p B i rhs x Hj IH E1 E2 E3].
  - congruence.
  - subst m. pose proof (l_back _ _ _ _ _ _ _ _ L _ _ _ _ _ _ Ht (hasl_has _ _ _ _ _ _ _ Hk)) as [_ E].
    eapply (c_fwd _ _ _ _ _ _ _ C); eauto. apply H2. eapply (s_back _ _ _ _ _ _ _ S1); eauto.
  - subst m. eapply (c_first _ _ _ _ _ _ _ C); eauto. apply H3. eapply just_has; eauto.
  - eapply (c_last _ _ _ _ _ _ _ C); eauto.
Qed.

Lemma same_has k t p0 sfk lookf acts q q' : makes k dbg g t -> lr0 g start eof p0 (t_states t) sfk lookf acts -> (forall A i u v, item_in t q A i u v -> item_in t q' A i u v) ->
  forall A pr p, has (t_states t) q A pr p -> has (t_states t) q' A pr p.
Proof.
  intros Hm L H A [rhs i] p Hh. pose proof (l_valid _ _ _ _ _ _ _ _ L _ _ _ _ Hh) as [_ Hle]. cbn in Hle.
  specialize (H A i (firstn p rhs) (skipn p rhs)). rewrite !item_has, firstn_skipn, firstn_length_le in H; auto.
Qed.
Lemma same_hasl k t p0 sfk lookf acts q q' : makes k dbg g t -> lr0 g start eof p0 (t_states t) sfk lookf acts -> (forall A i u v x, item_look t q A i u v x -> item_look t q' A i u v x) ->
  forall A pr p x, hasl (t_states t) clr_look q A pr p x -> hasl (t_states t) clr_look q' A pr p x.
Proof.
  intros Hm L H A [rhs i] p x Hh. pose proof (l_valid _ _ _ _ _ _ _ _ L _ _ _ _ (hasl_has _ _ _ _ _ _ _ Hh)) as [_ Hle]. cbn in Hle.
  specialize (H A i (firstn p rhs) (skipn p rhs) x). rewrite !look_hasl, firstn_skipn, firstn_length_le in H; auto.
Qed.

Section Table.
Variable t : tabler T.
Hypothesis Hm : makes CLR dbg g t.

Lemma same_moves : term rules eof -> dbg = true \/ only_terminals t -> forall q q' X n, same_lr1 t q q' -> moves t q X n ->
  exists n', moves t q' X n' /\ same_lr1 t n n' /\ forall n2, moves t q' X n2 -> n2 = n'.
Proof.
  intros He Ho. destruct (makes_terminals _ _ _ _ _ W Hg _ _ Hm Ho) as (t1 & Ht & _ & _ & Hf & _). pose proof (tmakes_facts _ _ _ _ _ W Hg _ Ht) as F.
  destruct (makes_with _ _ _ _ _ W Hg _ _ _ Ht Hm) as (fm & Em). destruct (Wp0 _ _ _ _ _ W Hg) as (p0 & Hp0 & _).
  pose proof (clr_lr0 _ _ _ _ _ W Hg _ F _ _ Em _ Hp0) as L. pose proof (clr_lr1s _ _ _ _ _ W Hg _ F _ _ Em _ Hp0) as S1.
  pose proof (clr_lr1c _ _ _ _ _ W Hg _ F _ _ Em _ Hp0) as C.
  assert (Q : forall q A pr k x, hasl (t_states t) clr_look q A pr k x -> term (g_rules g) x).
  { intros q A pr k x H. rewrite (Wr _ _ _ _ _ Hg). exact (clr_look_Q _ _ _ _ _ W Hg _ F _ _ _ _ _ _ _ _ Em (Qterm _ _ _ _ _ _ F He Hf) H). }
  intros q q' X n [I1 I2] Hmv. apply (moves_tr _ _ _ _ _ _ _ _ _ _ L) in Hmv as Htr.
  assert (exists n', tr (t_states t) (sfk_plain (t_kernels t)) q' X n') as (n' & Htr').
  { pose proof Htr as (row & [A pr p l] & E & Hi & Hd & _). rewrite ptop_nth in Hd. apply (l_tr _ _ _ _ _ _ _ _ L q' A pr p X); [|exact Hd].
    apply (same_has _ _ _ _ _ _ q q' Hm L); [intros; now apply I1|]. exists row, l. auto. }
  exists n'. split; [eapply tr_moves; eauto|]. split.
  - assert (A1 : forall A pr p, has (t_states t) q A pr p -> has (t_states t) q' A pr p) by (eapply same_has; eauto; intros; now apply I1).
    assert (A2 : forall A pr p, has (t_states t) q' A pr p -> has (t_states t) q A pr p) by (eapply same_has; eauto; intros; now apply I1).
    assert (A3 : forall A pr p x, hasl (t_states t) clr_look q A pr p x -> hasl (t_states t) clr_look q' A pr p x) by (eapply same_hasl; eauto; intros; now apply I2).
    assert (A4 : forall A pr p x, hasl (t_states t) clr_look q' A pr p x -> hasl (t_states t) clr_look q A pr p x) by (eapply same_hasl; eauto; intros; now apply I2).
    destruct (into _ _ _ _ L C S1 Q q q' X n n' Htr Htr' A1 A3) as [J1 J2]. destruct (into _ _ _ _ L C S1 Q q' q X n' n Htr' Htr A2 A4) as [K1 K2].
    split; intros; rewrite ?item_has, ?look_hasl; split; auto.
  - intros n2 H2. apply (moves_tr _ _ _ _ _ _ _ _ _ _ L) in H2. eapply tr_fun; eauto.
Qed.

Lemma decided go q x b : decides CLR t go q x b <->
  (exists A i u v, item_in t q A i u (x :: v) /\ b = if is_terminal g x then Shift (go q x) else Goto (go q x)) \/
  (exists A i u, item_look t q A i u [] x /\ b = if eqb A start then Acc else Reduce A (u, i)).
Proof.
  destruct (Wp0 _ _ _ _ _ W Hg) as (p0 & Hp0 & _). destruct (makes_made _ _ _ _ _ W Hg _ _ _ Hm Hp0) as (sfk & lookf & X).
  pose proof (m_lr0 _ _ _ _ _ _ _ _ _ _ X) as L. pose proof (makes_grammar _ _ _ _ _ W Hg _ _ Hm) as Eg.
  assert (It : forall row A rhs i p l, nth_error (t_states t) q = Some row -> In (mkPos A (rhs, i) p l) row -> p <= length rhs).
  { intros row A rhs i p l E H. apply (l_valid _ _ _ _ _ _ _ _ L q A (rhs, i) p). exists row, l. auto. }
  split.
  - intros D.
    assert (Dot : forall row pos, nth_error (t_states t) q = Some row -> In pos row -> at_dot pos = Some x -> exists A i u v, item_in t q A i u (x :: v)).
    { intros row [A [rhs i] p l] E H Hd. unfold at_dot in Hd. cbn in Hd. apply nth_error_split in Hd as (u & v & -> & Lu). exists A, i, u, v, row, (mkPos A (u ++ x :: v, i) p l). cbn. auto. }
    assert (End : forall row pos, nth_error (t_states t) q = Some row -> In pos row -> at_dot pos = None -> In x (p_look pos) -> item_look t q (p_rule pos) (snd (p_seq pos)) (fst (p_seq pos)) [] x).
    { intros row [A [rhs i] p l] E H Hd Hx. unfold at_dot in Hd. cbn in *. apply nth_error_None in Hd. pose proof (It _ _ _ _ _ _ E H).
      exists row, (mkPos A (rhs, i) p l). cbn. rewrite app_nil_r. repeat split; auto. lia. }
    destruct D as [row pos x E H Hd Hx|row pos x E H Hd Hx|row pos x E H Hd Hx Hn|row pos x E H Hd Hx Hn].
    + left. destruct (Dot _ _ E H Hd) as (A & i & u & v & Hi). exists A, i, u, v. split; auto. rewrite Eg in Hx. apply is_terminal_term in Hx. now rewrite Hx.
    + left. destruct (Dot _ _ E H Hd) as (A & i & u & v & Hi). exists A, i, u, v. split; auto. rewrite Eg in Hx. destruct (is_terminal g x) eqn:Ex; auto. apply is_terminal_term in Ex. now destruct Ex.
    + right. exists (p_rule pos), (snd (p_seq pos)), (fst (p_seq pos)). split; [eapply End; eauto|]. rewrite Eg, Hp0 in Hn. cbn in Hn. destruct (eqb _ _) eqn:Ee; [apply eqb_eq in Ee; contradiction|]. now destruct (p_seq pos).
    + right. exists (p_rule pos), (snd (p_seq pos)), (fst (p_seq pos)). split; [eapply End; eauto|]. rewrite Eg, Hp0 in Hn. cbn in Hn. rewrite Hn, eqb_refl. auto.
  - intros [(A & i & u & v & (row & [A' pr p l] & E & H & E1 & E2 & E3) & ->)|(A & i & u & (row & [A' pr p l] & E & H & E1 & E2 & E3 & E4) & ->)]; cbn in *; subst A' pr p.
    + assert (at_dot (mkPos A (u ++ x :: v, i) (length u) l : position T) = Some x) as Hd.
      { unfold at_dot. cbn. rewrite nth_error_app2, Nat.sub_diag; auto. }
      destruct (is_terminal g x) eqn:Ex; econstructor; eauto; rewrite Eg; [now apply is_terminal_term|].
      destruct (nonterm_dec (g_rules g) x) as [Hn|Hn]; auto. exfalso. assert (is_terminal g x = true); [now apply is_terminal_term|congruence].
    + rewrite app_nil_r in H. assert (at_dot (mkPos A (u, i) (length u) l : position T) = None) as Hd.
      { unfold at_dot. cbn. now apply nth_error_None. }
      destruct (eqb A start) eqn:Ee.
      * apply eqb_eq in Ee as ->. eapply decides_accept; eauto. now rewrite Eg, Hp0.
      * eapply (decides_reduce _ _ _ _ _ (mkPos A (u, i) (length u) l)); eauto. rewrite Eg, Hp0. cbn. intros ->. rewrite eqb_refl in Ee. discriminate.
Qed.

Lemma same_decided go q q' x b : same_lr1 t q q' -> decides CLR t go q x b ->
  (b = (if is_terminal g x then Shift (go q x) else Goto (go q x)) /\ decides CLR t go q' x (if is_terminal g x then Shift (go q' x) else Goto (go q' x))) \/
  (((exists A pr, b = Reduce A pr) \/ b = Acc) /\ decides CLR t go q' x b).
Proof.
  intros [H1 H2] D. apply decided in D as [(A & i & u & v & Hi & ->)|(A & i & u & Hi & ->)].
  - left. split; auto. apply decided. left. apply H1 in Hi. eauto 6.
  - right. split; [destruct (eqb A start); eauto|]. apply decided. right. apply H2 in Hi. eauto.
Qed.
Lemma same_conflict go q q' x : same_lr1 t q q' -> (exists a b, decides CLR t go q x a /\ decides CLR t go q x b /\ a <> b) ->
  exists a b, decides CLR t go q' x a /\ decides CLR t go q' x b /\ a <> b.
Proof.
  intros Hs (a & b & Da & Db & N). destruct (same_decided _ _ _ _ _ Hs Da) as [[Ea Da']|[Ea Da']], (same_decided _ _ _ _ _ Hs Db) as [[Eb Db']|[Eb Db']].
  - congruence.
  - do 2 eexists. split; [exact Da'|]. split; [exact Db'|]. destruct (is_terminal g x), Eb as [(A & pr & ->)| ->]; discriminate.
  - do 2 eexists. split; [exact Da'|]. split; [exact Db'|]. destruct (is_terminal g x), Ea as [(A & pr & ->)| ->]; discriminate.
  - eauto.
Qed.

Lemma same_entries : term rules eof -> dbg = true \/ only_terminals t -> forall q q', same_lr1 t q q' ->
  forall m m', nth_error (t_actions t) q = Some m -> nth_error (t_actions t) q' = Some m' ->
  (forall x a b, bm_get x m = Some a -> inside b a -> exists a' b', bm_get x m' = Some a' /\ inside b' a' /\ alike t b b') /\
  (forall x, (exists a b, bm_get x m = Some (Conflict a b)) <-> (exists a b, bm_get x m' = Some (Conflict a b))).
Proof.
  intros He Ho q q' Hs m m' Em Em'. destruct (table_exact _ _ _ _ _ W Hg _ _ Hm) as (go & _ & _ & HT).
  destruct (HT _ _ Em) as (_ & D & C), (HT _ _ Em') as (_ & D' & C'). split.
  - intros x a b Ha Hb. assert (decides CLR t go q x b) as Db by (apply D; eauto).
    destruct (same_decided _ _ _ _ _ Hs Db) as [[-> Db']|[Eb Db']]; apply D' in Db' as (a' & Ha' & Hb'); exists a'; eexists; (split; [exact Ha'|]); (split; [exact Hb'|]).
    + assert (moves t q x (go q x)) as M1 by (exists m, a; destruct (is_terminal g x); auto).
      assert (moves t q' x (go q' x)) as M2 by (exists m', a'; destruct (is_terminal g x); auto).
      destruct (same_moves He Ho _ _ _ _ Hs M1) as (n & _ & Sn & U). rewrite (U _ M2). destruct (is_terminal g x); now constructor.
    + destruct Eb as [(A & pr & ->)| ->]; constructor.
  - intros x. rewrite C, C'. split; apply same_conflict; auto using same_lr1_sym.
Qed.
End Table.

(** Clr's states and the canonical LR(1) collection *)
Lemma same_prefixes t : makes CLR dbg g t -> term rules eof -> dbg = true \/ single_start rules start -> dbg = true \/ only_terminals t -> productive rules ->
  forall q qs xs q' qs' xs', stack_path t (q :: qs) xs -> stack_path t (q' :: qs') xs' ->
  (same_lr1 t q q' <-> same_valid rules start eof (rev xs) (rev xs')).
Proof.
  intros Hm He Hs Ho Hp q qs xs q' qs' xs' P P'. destruct (items_valid _ _ _ _ _ W Hg _ _ Hm Hs Hp) as (I & _).
  pose proof (looks_valid _ _ _ _ _ W Hg _ Hm He Hs Ho Hp) as K. unfold same_lr1, same_valid.
  split; intros [H1 H2]; (split; intros; [rewrite <- (I _ _ _ P), <- (I _ _ _ P')||rewrite (I _ _ _ P), (I _ _ _ P')|rewrite <- (K _ _ _ P), <- (K _ _ _ P')||rewrite (K _ _ _ P), (K _ _ _ P')]; auto).
Qed.

(** one state of Clr's for each state of the canonical collection, if all FIRST sets in use are single *)
Lemma single_looks t : makes CLR dbg g t -> dbg = true \/ only_terminals t -> one_first rules ->
  forall q row p, nth_error (t_states t) q = Some row -> In p row -> exists x, p_look p = [x].
Proof.
  intros Hm Ho H1. destruct (makes_terminals _ _ _ _ _ W Hg _ _ Hm Ho) as (t1 & Ht & _ & _ & Hf & _). pose proof (tmakes_facts _ _ _ _ _ W Hg _ Ht) as F.
  destruct (makes_with _ _ _ _ _ W Hg _ _ _ Ht Hm) as (fm & Em). destruct (Wp0 _ _ _ _ _ W Hg) as (p0 & Hp0 & _).
  pose proof (clr_lr0 _ _ _ _ _ W Hg _ F _ _ Em _ Hp0) as L. destruct (clr_inv _ _ _ _ _ W Hg _ F _ _ Em) as (_ & _ & _ & HC & _).
  apply (canon_looks _ _ _ _ _ W Hg _ _ _ (fun l => exists x, l = [x]) HC); [eauto|].
  intros q row [A pr p l] B E Hi HB Nb Hl. unfold clr_lk. destruct (pnext _) as [Y|] eqn:Ey; auto. rewrite pnext_nth in Ey. rewrite ptop_nth in HB.
  destruct (l_valid _ _ _ _ _ _ _ _ L q A pr p) as (V1 & _); [exists row, l; auto|]. rewrite (Wr _ _ _ _ _ Hg) in V1.
  apply nth_error_split in HB as (u & v & Ep & Lu). destruct (H1 A (snd pr) u B Y (tl v)) as (x & Hx); auto.
  { rewrite Ep in Ey. rewrite nth_error_app2 in Ey by lia. replace (S p - length u) with 1 in Ey by lia. destruct v; [discriminate|]. injection Ey as ->. cbn. now rewrite <- Ep. }
  exists x. apply sorted_ext; [apply first_of_one_sorted|constructor; [intros ? []|constructor]|]. intros y. cbn.
  assert (In y (first_of (t_first t1) [Y]) -> term rules y) as Ty.
  { intros Hy. apply first_of_one in Hy as [[Hn ->]|Hy]; [|eauto]. intros HY. apply (tf_first_keys _ _ _ _ _ _ F) in HY as (s & Hs). congruence. }
  split.
  - intros Hy. left. symmetry. apply Hx. apply (first_of_spec _ _ _ _ _ _ F); auto.
  - intros [<-|[]]. assert (first_spec rules Y x) as Hy by now apply Hx. apply (first_of_spec _ _ _ _ _ _ F); auto. apply Hy.
Qed.

Lemma same_states t : makes CLR dbg g t -> dbg = true \/ only_terminals t -> one_first rules ->
  forall q q', q < length (t_states t) -> q' < length (t_states t) -> same_lr1 t q q' -> q = q'.
Proof.
  intros Hm Ho H1 q q' Lq Lq' Hs. pose proof (single_looks _ Hm Ho H1) as Sg.
  destruct (makes_tabler _ _ _ _ _ W Hg _ _ Hm) as (tb & _ & F & fm & Em). destruct (Wp0 _ _ _ _ _ W Hg) as (p0 & Hp0 & _).
  destruct (clr_inv _ _ _ _ _ W Hg _ F _ _ Em) as (_ & _ & _ & HC & _). pose proof (clr_lr0 _ _ _ _ _ W Hg _ F _ _ Em _ Hp0) as L.
  destruct (nth_error (t_states t) q) as [row|] eqn:E; [|apply nth_error_None in E; lia]. destruct (nth_error (t_states t) q') as [row'|] eqn:E'; [|apply nth_error_None in E'; lia].
  assert (Gen : forall a b ra rb, nth_error (t_states t) a = Some ra -> nth_error (t_states t) b = Some rb -> same_lr1 t a b -> forall pos, In pos ra -> In pos rb).
  { intros a b ra rb Ea Eb [_ S2] [A pr p l] Hp. destruct (Sg _ _ _ Ea Hp) as (x & Ex). cbn in Ex. subst l.
    assert (hasl (t_states t) clr_look b A pr p x) as Hb.
    { apply (same_hasl _ _ _ _ _ _ a b Hm L); [intros *; apply S2|]. apply clr_hasl. exists ra, [x]. repeat split; auto. now left. }
    apply clr_hasl in Hb as (r & l & Er & Hl & Hx). assert (r = rb) as -> by congruence.
    destruct (Sg _ _ _ Eb Hl) as (y & Ey). cbn in Ey. subst l. destruct Hx as [->|[]]. auto. }
  eapply canon_same; eauto. intros pos _. split; [apply (Gen q q')|apply (Gen q' q)]; auto using same_lr1_sym.
Qed.

(** never fewer states than the canonical collection has *)
Lemma enough_states t : makes CLR dbg g t -> term rules eof -> dbg = true \/ single_start rules start -> dbg = true \/ only_terminals t -> productive rules ->
  forall pres, (forall pre, In pre pres -> exists A i u v, valid_after rules start pre A i u v) ->
  ForallOrdPairs (fun pre pre' => ~ same_valid rules start eof pre pre') pres -> length pres <= length (t_states t).
Proof.
  intros Hm He Hs Ho Hp pres Hv Hd. destruct (items_valid _ _ _ _ _ W Hg _ _ Hm Hs Hp) as (I & V & _).
  assert (exists ql, Forall2 (fun pre q => exists qs, stack_path t (q :: qs) (rev pre)) pres ql) as (ql & HF).
  { clear Hd. induction pres as [|pre pres IH]; [exists []; constructor|]. destruct IH as (ql & HF); [intros; apply Hv; now right|].
    destruct (proj2 (V pre)) as (q & qs & P); [apply Hv; now left|]. exists (q :: ql). constructor; eauto. }
  assert (length pres = length ql) as -> by (clear - HF; induction HF; cbn; congruence). rewrite <- (seq_length (length (t_states t)) 0). apply NoDup_incl_length.
  - clear Hv. induction HF as [|pre q pres ql (qs & P) HF IH]; constructor.
    + intros Hin. inversion Hd as [|? ? H1 H2]; subst. clear IH.
      assert (exists pre', In pre' pres /\ exists qs', stack_path t (q :: qs') (rev pre')) as (pre' & Hi & qs' & P').
      { clear - HF Hin. induction HF as [|a b l l' H HF IH]; [destruct Hin|]. destruct Hin as [<-|Hin]; [exists a; split; auto; now left|]. destruct IH as (p' & Hp' & H'); auto. exists p'. split; auto. now right. }
      rewrite Forall_forall in H1. apply (H1 pre' Hi). rewrite <- (rev_involutive pre), <- (rev_involutive pre').
      apply (same_prefixes t Hm He Hs Ho Hp _ _ _ _ _ _ P P'). split; tauto.
    + apply IH. now inversion Hd.
  - intros q Hq. assert (exists pre, In pre pres /\ exists qs, stack_path t (q :: qs) (rev pre)) as (pre & Hi & qs & P).
    { clear - HF Hq. induction HF as [|a b l l' H HF IH]; [destruct Hq|]. destruct Hq as [<-|Hin]; [exists a; split; auto; now left|]. destruct IH as (p' & Hp' & H'); auto. exists p'. split; auto. now right. }
    destruct (Hv _ Hi) as (A & i & u & v & Va). rewrite <- (rev_involutive pre) in Va. apply (I _ _ _ P) in Va as (row & pos & E & _).
    apply in_seq. assert (q < length (t_states t)) by (apply nth_error_Some; congruence). lia.
Qed.
End Same.
