(** States of Slr, Clr and Lalr compared by their items (C91, C92). *)
From Coq Require Import List Bool Arith Lia.
From Verif Require Import BTree Model Base Spec SpecP GrammarP FirstFollow Closure Canon ActTab LR CanonLR Merged Lalr LalrLR Agree Interface Wrap Final LR1Spec Handle HandleF LalrClr.
Import ListNotations.

(** ** two automata for the same grammar *)
Section Match.
Context {T : Type} {OT : Ord T}.
Variables (g : grammar T) (start eof : T) (p0 : production T).
Variables (sts1 sts2 : list (state T)) (sfk1 sfk2 : state T -> option nat).
Variables (lookf1 lookf2 : position T -> res (bset T)) (acts1 acts2 : acttable T).
Hypothesis L1 : lr0 g start eof p0 sts1 sfk1 lookf1 acts1.
Hypothesis L2 : lr0 g start eof p0 sts2 sfk2 lookf2 acts2.
Hypothesis R1 : forall q, q < length sts1 -> exists qs Xs, path sts1 sfk1 (q :: qs) Xs.

Definition match_at (q q' : nat) : Prop := q < length sts1 /\ q' < length sts2 /\ forall A pr k, has sts1 q A pr k <-> has sts2 q' A pr k.

Lemma path_len2 q qs Xs : path sts2 sfk2 (q :: qs) Xs -> q < length sts2.
Proof.
  inversion 1; subst; [|eapply (l_len _ _ _ _ _ _ _ _ L2); eauto].
  destruct (l_start _ _ _ _ _ _ _ _ L2) as (row & l & E & _). apply nth_error_Some. congruence.
Qed.

Lemma match_total q : q < length sts1 -> exists q', match_at q q'.
Proof.
  intros Hq. destruct (R1 q Hq) as (qs & Xs & P). destruct (same_path _ _ _ _ _ _ _ _ _ _ _ _ L2 L1 _ _ P) as (q' & qs' & P').
  exists q'. split; auto. split; [eapply path_len2; eauto|]. intros A pr k. split; intros H.
  - eapply (Agree.same_items _ _ _ _ _ _ _ _ _ _ _ _ L1 L2); eauto.
  - eapply (Agree.same_items _ _ _ _ _ _ _ _ _ _ _ _ L2 L1); eauto.
Qed.

Hypothesis I1 : forall q q', q < length sts1 -> q' < length sts1 -> alike sts1 q q' -> q = q'.

Lemma match_count : length sts1 <= length sts2.
Proof.
  assert (forall n, n <= length sts1 -> exists l, length l = n /\ NoDup l /\ incl l (seq 0 (length sts2)) /\ forall q', In q' l -> exists q, q < n /\ match_at q q') as H.
  { induction n as [|n IH]; intros Hn.
    - exists []. split; auto. split; [constructor|]. split; intros ? [].
    - destruct IH as (l & El & Nl & Il & Hl); [lia|]. destruct (match_total n) as (q' & Hm); [lia|].
      exists (q' :: l). cbn [length]. split; [lia|]. split; [|split].
      + constructor; auto. intros Hq. destruct (Hl _ Hq) as (q & Hlt & _ & _ & H1). destruct Hm as (_ & _ & H2).
        assert (n = q); [|lia]. apply I1; [lia|lia|]. intros A pr k. now rewrite H1, H2.
      + intros x [<-|Hx]; auto. apply in_seq. destruct Hm as (_ & Hm & _). lia.
      + intros x [<-|Hx]; [exists n; auto|]. destruct (Hl _ Hx) as (q & Hlt & Hq). exists q. auto. }
  destruct (H (length sts1)) as (l & El & Nl & Il & _); [lia|]. rewrite <- El. rewrite <- (seq_length (length sts2) 0). now apply NoDup_incl_length.
Qed.

Hypothesis I2 : forall q q', q < length sts2 -> q' < length sts2 -> alike sts2 q q' -> q = q'.
Hypothesis R2 : forall q, q < length sts2 -> exists qs Xs, path sts2 sfk2 (q :: qs) Xs.

Lemma match_fun q q1 q2 : match_at q q1 -> match_at q q2 -> q1 = q2.
Proof. intros (_ & L & H) (_ & L' & H'). apply I2; auto. intros A pr k. now rewrite <- H, <- H'. Qed.

Lemma match_path q q' : match_at q q' -> exists qs qs' Xs, path sts1 sfk1 (q :: qs) Xs /\ path sts2 sfk2 (q' :: qs') Xs.
Proof.
  intros Hm. pose proof Hm as (Hq & _). destruct (R1 q Hq) as (qs & Xs & P). destruct (same_path _ _ _ _ _ _ _ _ _ _ _ _ L2 L1 _ _ P) as (q2 & qs' & P').
  assert (q2 = q') as <-.
  { eapply match_fun; [|exact Hm]. split; auto. split; [eapply path_len2; eauto|]. intros A pr k. split; intros H.
    - eapply (Agree.same_items _ _ _ _ _ _ _ _ _ _ _ _ L1 L2); eauto.
    - eapply (Agree.same_items _ _ _ _ _ _ _ _ _ _ _ _ L2 L1); eauto. }
  exists qs, qs', Xs. auto.
Qed.

Lemma match_tr q q' X n n' : match_at q q' -> match_at n n' -> tr sts1 sfk1 q X n -> tr sts2 sfk2 q' X n'.
Proof.
  intros Hm Hn Ht. destruct (match_path _ _ Hm) as (qs & qs' & Xs & P & P').
  pose proof Ht as (row & [A pr k l] & H1 & H2 & H3 & _). rewrite ptop_nth in H3.
  assert (has sts2 q' A pr k) as Hh by (apply Hm; exists row, l; auto).
  destruct (l_tr _ _ _ _ _ _ _ _ L2 _ _ _ _ _ Hh H3) as (m & Hmt).
  assert (path sts1 sfk1 (n :: q :: qs) (X :: Xs)) as Q by (constructor; auto).
  assert (path sts2 sfk2 (m :: q' :: qs') (X :: Xs)) as Q' by (constructor; auto).
  assert (m = n') as <-; auto. eapply match_fun; [|exact Hn].
  split; [eapply (l_len _ _ _ _ _ _ _ _ L1); eauto|]. split; [eapply (l_len _ _ _ _ _ _ _ _ L2); eauto|].
  intros B pr' j. split; intros H.
  - eapply (Agree.same_items _ _ _ _ _ _ _ _ _ _ _ _ L1 L2); eauto.
  - eapply (Agree.same_items _ _ _ _ _ _ _ _ _ _ _ _ L2 L1); eauto.
Qed.
End Match.

Section Cores.
Context {T : Type} {OT : Ord T}.
Variables (dbg : bool) (start eof : T) (rules : rulemap T) (g : grammar T).
Hypothesis W : wf_rules rules.
Hypothesis Hg : grammar_new dbg start rules eof = Val g.
Let Er : g_rules g = rules := proj1 (grammar_new_inv _ _ _ _ _ Hg).

(** an item of Slr carries [eof] if it belongs to the start symbol, else nothing *)
Lemma slr_item_look ks sts : canon g slr_lk ks sts -> start_fresh rules start ->
  forall q row pos, nth_error sts q = Some row -> In pos row -> vpos g pos /\ p_look pos = if eqb (p_rule pos) start then [eof] else [].
Proof.
  intros HC Hf. destruct (Wp0 _ _ _ _ _ W Hg) as (p0 & Hp0 & _).
  induction q as [q IH] using (well_founded_induction lt_wf). intros row pos E Hin.
  split; [destruct HC as [Hci _]; exact (ci_vpos _ _ _ Hci _ _ _ E Hin)|].
  destruct (canon_row g slr_lk ks sts HC q row E) as (seed & _ & Hs & Hq). apply Hs in Hin. 
  assert (forall b, clo g slr_lk seed b -> vpos g b) as Hv.
  { intros b Hb. apply Hs in Hb. destruct HC as [Hci _]. exact (ci_vpos _ _ _ Hci _ _ _ E Hb). }
  induction Hin as [b Hb|b c Hb _ (B & r & pr & Ht & Eb & Hpr & ->)].
  - destruct Hq as [[-> ->]|(_ & _ & _ & j & row' & X & Hj & Ej & ->)].
    + destruct Hb as [<-|[]]. rewrite Hp0. cbn [p_rule p_look]. now destruct (eqb_spec start start).
    + apply sym_filter_in in Hb as (b' & Hb' & Ht & ->). destruct (IH _ Hj _ _ Ej Hb') as [_ El]. destruct b'. exact El.
  - cbn [p_rule p_look]. destruct (eqb_spec B start) as [->|N]; auto. exfalso.
    apply Hv in Hb. destruct Hb as ([Hpb _] & _). rewrite Er in Hpb. unfold ptop, peek in Ht. apply nth_error_In in Ht. exact (Hf _ _ _ Hpb Ht).
Qed.

Lemma slr_inj fuel t t' : tabler_facts dbg start eof rules g t -> slr_with_table dbg fuel t = Val t' -> start_fresh rules start ->
  forall q q', q < length (t_states t') -> q' < length (t_states t') -> alike (t_states t') q q' -> q = q'.
Proof.
  intros F Hl Hf. destruct (slr_inv _ _ _ _ _ W Hg _ F _ _ Hl) as (_ & _ & _ & HC & _).
  set (sts := t_states t') in *. set (ks := t_kernels t') in *.
  pose proof (slr_item_look _ _ HC Hf) as Hlook.
  assert (X : forall q, q < length sts -> (q = 0 /\ forall A pr k, has sts q A pr k -> k = 0) \/
     exists seed, seed <> [] /\ sorted seed /\ bm_get seed ks = Some q /\ (forall b, In b seed -> 0 < p_point b) /\
       (forall b, In b seed -> p_look b = if eqb (p_rule b) start then [eof] else []) /\
       forall A pr k, (exists l, In (mkPos A pr (S k) l) seed) <-> has sts q A pr (S k)).
  { intros q Hq. destruct (nth_error sts q) as [row|] eqn:E; [|apply nth_error_None in E; lia].
    destruct (canon_row g slr_lk ks sts HC q row E) as (seed & _ & Hs & [[-> ->]|(_ & N & Hk & j & row' & Y & _ & _ & ->)]).
    - left. split; auto. intros A pr k (row1 & l & E1 & H1). rewrite E in E1. injection E1 as <-. apply Hs, clo_point in H1 as [[H1|[]]|H1]; auto.
      destruct (Wp0 _ _ _ _ _ W Hg) as (p0 & Hp0 & _). rewrite Hp0 in H1. congruence.
    - right. exists (sym_filter row' Y). split; auto. split; [apply sym_filter_sorted|]. split; auto. split; [|split].
      + intros b Hb. apply sym_filter_in in Hb as (pos & _ & _ & ->). simpl. lia.
      + intros b Hb. apply (Hlook q row); auto. apply Hs. now constructor.
      + intros A pr k. split.
        * intros (l & H1). exists row, l. split; auto. apply Hs. now constructor.
        * intros (row1 & l & E1 & H1). rewrite E in E1. injection E1 as <-. exists l. apply Hs, clo_point in H1 as [H1|H1]; auto. discriminate. }
  assert (Y : forall q seed, (forall b, In b seed -> 0 < p_point b) ->
     (forall A pr k, (exists l, In (mkPos A pr (S k) l) seed) <-> has sts q A pr (S k)) -> seed <> [] -> exists A pr k, has sts q A pr (S k)).
  { intros q [|[A pr [|k] l] seed] Hb Hh N; [congruence| |]; pose proof (Hb _ (or_introl eq_refl)) as H2; simpl in H2; [lia|].
    exists A, pr, k. apply Hh. exists l. now left. }
  intros q q' Hq Hq' Hal. destruct (X q Hq) as [[-> H0]|(seed & N & So & Hk & Hb & Hlk & Hh)]; destruct (X q' Hq') as [[-> H0']|(seed' & N' & So' & Hk' & Hb' & Hlk' & Hh')]; auto.
  - destruct (Y _ _ Hb' Hh' N') as (A & pr & k & H). apply Hal, H0 in H. discriminate.
  - destruct (Y _ _ Hb Hh N) as (A & pr & k & H). apply Hal, H0' in H. discriminate.
  - assert (seed = seed') as <-; [|congruence].
    assert (Z : forall s s' : state T, (forall b, In b s -> 0 < p_point b) ->
       (forall b, In b s -> p_look b = if eqb (p_rule b) start then [eof] else []) ->
       (forall b, In b s' -> p_look b = if eqb (p_rule b) start then [eof] else []) ->
       (forall A pr k, (exists l, In (mkPos A pr (S k) l) s) -> exists l, In (mkPos A pr (S k) l) s') -> incl s s').
    { clear. intros s s' Hb Hl Hl' H [A pr [|k] l] Hi; [apply Hb in Hi; simpl in Hi; lia|].
      destruct (H A pr k) as (l' & Hi'); [eauto|]. apply Hl in Hi as E1. apply Hl' in Hi' as E2. simpl in E1, E2. congruence. }
    apply sorted_ext; auto. intros b. split; intros H.
    + revert H. apply (Z seed seed'); auto. intros A pr k H. apply Hh', Hal, Hh, H.
    + revert H. apply (Z seed' seed); auto. intros A pr k H. apply Hh, Hal, Hh', H.
Qed.

(** the same items, whatever the lookaheads *)
Definition like (row row' : state T) : Prop := forall A pr i, (exists l, In (mkPos A pr i l) row) <-> (exists l, In (mkPos A pr i l) row').

Lemma like_alike sts q q' row row' : nth_error sts q = Some row -> nth_error sts q' = Some row' -> (alike (T := T) sts q q' <-> like row row').
Proof.
  intros E E'. split.
  - intros H A pr i. split; intros (l & Hi).
    + destruct (proj1 (H A pr i)) as (r & l' & E1 & H1); [exists row, l; auto|]. assert (r = row') as -> by congruence. eauto.
    + destruct (proj2 (H A pr i)) as (r & l' & E1 & H1); [exists row', l; auto|]. assert (r = row) as -> by congruence. eauto.
  - intros H A pr i. split; intros (r & l & E1 & Hi).
    + assert (r = row) as -> by congruence. destruct (proj1 (H A pr i)) as (l' & H1); eauto. exists row', l'. auto.
    + assert (r = row') as -> by congruence. destruct (proj2 (H A pr i)) as (l' & H1); eauto. exists row, l'. auto.
Qed.

(** *** C91 *)
Lemma lalr_clr_iff tc : makes CLR dbg g tc ->
  makes LALR dbg g tc <->
  (forall q q' row row', nth_error (t_states tc) q = Some row -> nth_error (t_states tc) q' = Some row' ->
     (forall A pr i, (exists l, In (mkPos A pr i l) row) <-> (exists l, In (mkPos A pr i l) row')) -> q = q').
Proof.
  intros Hc. split; [|apply (lalr_is_clr _ _ _ _ _ W Hg _ Hc)].
  intros (t & Ht & F & fuel & p & E)%(makes_tabler _ _ _ _ _ W Hg) q q' row row' E1 E2 H.
  destruct (lalr_inv _ _ _ _ _ W Hg _ F _ _ _ E) as (_ & _ & _ & Hs & _). rewrite Hs in E1, E2.
  apply (lalr_inj _ _ _ _ _ W Hg _ _ _ _ F E); [apply nth_error_Some; congruence|apply nth_error_Some; congruence|].
  apply (proj2 (like_alike _ _ _ _ _ E1 E2)). exact H.
Qed.

Lemma moves_tr p0 sfk lookf t q X n : lr0 g start eof p0 (t_states t) sfk lookf (t_actions t) -> moves t q X n -> tr (t_states t) sfk q X n.
Proof.
  intros L (m & a & Em & Ha & Hi). destruct (row_spec' _ _ _ _ _ _ _ _ L _ _ Em) as (row & Hr & Hok).
  assert (exists b, In b (leaves a) /\ (b = Shift n \/ b = Goto n)) as (b & Hb & Eb) by (destruct Hi as [Hi|Hi]; apply inside_leaves in Hi; eauto).
  destruct (proj1 (proj1 (proj2 Hok) X b)) as (pos & Hp & Hd); [eauto|]. exists row, pos. split; auto. split; auto.
  destruct Hd; destruct Eb as [Eb|Eb]; try discriminate; injection Eb as <-; auto.
Qed.

Lemma bounded_choice (R : nat -> nat -> Prop) N : (forall q, q < N -> exists q', R q q') -> exists f, forall q, q < N -> R q (f q).
Proof.
  induction N as [|N IH]; intros H; [exists (fun q => q); intros; lia|].
  destruct IH as (f & Hf); [intros; apply H; lia|]. destruct (H N) as (m & Hm); [lia|].
  exists (fun q => if q =? N then m else f q). intros q Hq. destruct (Nat.eqb_spec q N) as [->|]; auto. apply Hf. lia.
Qed.

(** *** C92 *)
Lemma lalr_slr_states tl ts : makes LALR dbg g tl -> makes SLR dbg g ts -> start_fresh rules start ->
  length (t_states tl) = length (t_states ts) /\ exists f,
  (forall q, q < length (t_states tl) -> f q < length (t_states ts)) /\
  (forall q q', q < length (t_states tl) -> q' < length (t_states tl) -> f q = f q' -> q = q') /\
  (forall q row, nth_error (t_states tl) q = Some row -> exists row', nth_error (t_states ts) (f q) = Some row' /\
     forall A pr i, (exists l, In (mkPos A pr i l) row) <-> (exists l, In (mkPos A pr i l) row')) /\
  (forall q X n, q < length (t_states tl) -> n < length (t_states tl) -> moves tl q X n <-> moves ts (f q) X (f n)).
Proof.
  intros (t & Ht & F & fuel & p & E)%(makes_tabler _ _ _ _ _ W Hg) Hs Hf.
  destruct (makes_with _ _ _ _ _ W Hg _ _ _ Ht Hs) as (fs & Es). cbn beta iota in Es.
  destruct (Wp0 _ _ _ _ _ W Hg) as (p0 & Hp0 & _).
  pose proof (lalr_lr0 _ _ _ _ _ W Hg _ F _ _ _ E _ Hp0) as L1. pose proof (slr_lr0 _ _ _ _ _ W Hg _ F _ _ Es _ Hp0) as L2.
  pose proof (lalr_reach _ _ _ _ _ W Hg _ F _ _ _ E) as R1. pose proof (slr_reach _ _ _ _ _ W Hg _ _ _ F Es) as R2.
  pose proof (lalr_inj _ _ _ _ _ W Hg _ _ _ _ F E) as I1. pose proof (slr_inj _ _ _ F Es Hf) as I2.
  destruct (lalr_inv _ _ _ _ _ W Hg _ F _ _ _ E) as (_ & _ & _ & El & _). rewrite <- El in *.
  split.
  - apply Nat.le_antisymm; [exact (match_count _ _ _ _ _ _ _ _ _ _ _ _ L1 L2 R1 I1)|exact (match_count _ _ _ _ _ _ _ _ _ _ _ _ L2 L1 R2 I2)].
  - destruct (bounded_choice (match_at (t_states tl) (t_states ts)) (length (t_states tl))) as (f & Hfm).
    { intros q Hq. exact (match_total _ _ _ _ _ _ _ _ _ _ _ _ L1 L2 R1 q Hq). }
    assert (Hm' : forall q, q < length (t_states tl) -> match_at (t_states ts) (t_states tl) (f q) q).
    { intros q Hq. destruct (Hfm q Hq) as (H1 & H2 & H3). split; auto. split; auto. intros A pr k. symmetry. apply H3. }
    exists f. split; [intros q Hq; apply (Hfm q Hq)|]. split; [|split].
    + intros q q' Hq Hq' Ef. apply I1; auto. intros A pr k. destruct (Hfm q Hq) as (_ & _ & H1). destruct (Hfm q' Hq') as (_ & _ & H2). rewrite H1, H2, Ef. reflexivity.
    + intros q row Hr. assert (q < length (t_states tl)) as Hq by (apply nth_error_Some; congruence). destruct (Hfm q Hq) as (_ & H2 & H3).
      destruct (nth_error (t_states ts) (f q)) as [row'|] eqn:Er'; [|apply nth_error_None in Er'; lia]. exists row'. split; auto.
      intros A pr i. split; intros (l & Hi).
      * destruct (proj1 (H3 A pr i)) as (r & l' & E1 & H1); [exists row, l; auto|]. assert (r = row') as -> by congruence. eauto.
      * destruct (proj2 (H3 A pr i)) as (r & l' & E1 & H1); [exists row', l; auto|]. assert (r = row) as -> by congruence. eauto.
    + intros q X n Hq Hn. split; intros H.
      * eapply tr_moves; [exact L2|]. apply (moves_tr _ _ _ _ _ _ _ L1) in H.
        exact (match_tr _ _ _ _ _ _ _ _ _ _ _ _ L1 L2 R1 I2 _ _ _ _ _ (Hfm q Hq) (Hfm n Hn) H).
      * eapply tr_moves; [exact L1|]. apply (moves_tr _ _ _ _ _ _ _ L2) in H.
        exact (match_tr _ _ _ _ _ _ _ _ _ _ _ _ L2 L1 R2 I1 _ _ _ _ _ (Hm' q Hq) (Hm' n Hn) H).
Qed.
End Cores.
