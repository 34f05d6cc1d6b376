(** No state twice, none out of reach; [kernels] numbers the states (C106). *)
From Coq Require Import List Bool Arith Lia Permutation.
From Verif Require Import BTree Model Base Spec SpecP GrammarP FirstFollow Closure Canon ActTab LR CanonLR Merged Lalr LalrLR Agree Interface Wrap Final LR1Spec Handle HandleF LalrClr Cores StatesSpec.
Import ListNotations.

Lemma nth_NoDup {A} (l : list A) : (forall i j x, nth_error l i = Some x -> nth_error l j = Some x -> i = j) -> NoDup l.
Proof.
  intros H. apply NoDup_nth_error. intros i j Hi E. destruct (nth_error l i) as [x|] eqn:Ei; [eauto|]. apply nth_error_None in Ei. lia.
Qed.

Lemma values_numbers {K} {OK : Ord K} (ks : bmap K nat) n : msorted ks -> (forall i, i < n -> exists k, bm_get k ks = Some i) ->
  (forall k i, bm_get k ks = Some i -> i < n) -> (forall k k' i, bm_get k ks = Some i -> bm_get k' ks = Some i -> k = k') ->
  Permutation (bm_values ks) (seq 0 n).
Proof.
  intros Hs H1 H2 H3. apply NoDup_Permutation.
  - unfold bm_values. apply nth_NoDup. intros i j x Ei Ej. rewrite nth_error_map in Ei, Ej.
    destruct (nth_error ks i) as [[k v]|] eqn:Ki; [|discriminate]. destruct (nth_error ks j) as [[k' v']|] eqn:Kj; [|discriminate].
    cbn in Ei, Ej. injection Ei as ->. injection Ej as ->.
    assert (bm_get k ks = Some x) as G1 by (apply bm_in_get; auto; eapply nth_error_In; eauto).
    assert (bm_get k' ks = Some x) as G2 by (apply bm_in_get; auto; eapply nth_error_In; eauto).
    pose proof (H3 _ _ _ G1 G2) as <-.
    assert (NoDup ks) as ND. { eapply NoDup_map_inv with (f := fst). now apply sorted_NoDup. }
    eapply NoDup_nth_error; eauto; [apply nth_error_Some|]; congruence.
  - apply seq_NoDup.
  - intros i. rewrite in_seq. split.
    + intros Hi. unfold bm_values in Hi. apply in_map_iff in Hi as ([k v] & <- & Hi). cbn. apply bm_in_get in Hi; auto. apply H2 in Hi. lia.
    + intros [_ Hi]. destruct (H1 i Hi) as (k & Hk). apply bm_get_in in Hk. unfold bm_values. apply in_map_iff. now exists (k, i).
Qed.

Section States.
Context {T : Type} {OT : Ord T}.
Variables (dbg : bool) (start eof : T) (rules : rulemap T) (g : grammar T).
Hypothesis W : wf_rules rules.
Hypothesis Hg : grammar_new dbg start rules eof = Val g.

Definition states_ok (k : method) (t : tabler T) : Prop :=
  NoDup (t_states t) /\
  (forall q, q < length (t_states t) -> exists qs xs, stack_path t (q :: qs) xs) /\
  Permutation (bm_values (t_kernels t)) (seq 0 (length (t_states t))) /\ bm_get [] (t_kernels t) = Some 0 /\
  (forall kernel q, bm_get kernel (t_kernels t) = Some q -> q <> 0 -> exists row, nth_error (t_states t) q = Some row /\ kernel_of k kernel row) /\
  (forall row pos, nth_error (t_states t) 0 = Some row -> In pos row -> p_point pos = 0).

Lemma canon_key lk ks sts kernel q : canon g lk ks sts -> bm_get kernel ks = Some q -> q <> 0 -> exists row, nth_error sts q = Some row /\
  (forall pos, In pos kernel <-> In pos row /\ 0 < p_point pos) /\ kernel <> [].
Proof.
  intros [C _] Hk Nq. assert (kernel <> []) as N.
  { intros ->. pose proof (ci_nil _ _ _ C) as Z. cbn [fst] in Z. congruence. }
  destruct (ci_ks _ _ _ C _ _ Hk N) as (_ & (c & Ec & Sc & Hc) & j & row' & X & _ & _ & ->). cbn [snd] in *. exists c. split; auto. split; auto.
  intros pos. split.
  - intros Hp. split; [apply Hc; now constructor|]. apply sym_filter_in in Hp as (b & _ & _ & ->). simpl. lia.
  - intros [Hp Hz]. apply Hc, clo_point in Hp as [Hp|Hp]; auto. lia.
Qed.
Lemma canon_zero lk ks sts row pos : canon g lk ks sts -> nth_error sts 0 = Some row -> In pos row -> p_point pos = 0.
Proof.
  intros [C _] E Hp. destruct (ci_zero _ _ _ C) as (s0 & E0 & _ & H0). cbn [snd] in E0. rewrite E in E0. injection E0 as <-.
  apply H0, clo_point in Hp as [[Hp|[]]|Hp]; auto. destruct (Wp0 _ _ _ _ _ W Hg) as (p0 & Hp0 & _). rewrite Hp0 in Hp. now subst.
Qed.
Lemma canon_sorted lk ks sts kernel q : canon g lk ks sts -> bm_get kernel ks = Some q -> sorted kernel.
Proof.
  intros [C _] Hk. destruct kernel as [|b kernel]; [exact I|]. destruct (ci_ks _ _ _ C _ _ Hk) as (_ & _ & j & row' & X & _ & _ & ->); [discriminate|]. apply sym_filter_sorted.
Qed.
Lemma canon_keys lk ks sts kernel kernel' q : canon g lk ks sts -> bm_get kernel ks = Some q -> bm_get kernel' ks = Some q -> kernel = kernel'.
Proof.
  intros HC H1 H2. destruct (Nat.eq_dec q 0) as [->|N].
  - pose proof HC as [C _]. destruct kernel as [|b l], kernel' as [|b' l']; auto.
    + destruct (ci_ks _ _ _ C _ _ H2) as (H & _); [discriminate|lia].
    + destruct (ci_ks _ _ _ C _ _ H1) as (H & _); [discriminate|lia].
    + destruct (ci_ks _ _ _ C _ _ H1) as (H & _); [discriminate|lia].
  - destruct (canon_key _ _ _ _ _ HC H1 N) as (row & E & K & _). destruct (canon_key _ _ _ _ _ HC H2 N) as (row' & E' & K' & _).
    assert (row = row') as <- by congruence. apply sorted_ext; eauto using canon_sorted. intros b. rewrite K, K'. tauto.
Qed.
Lemma canon_ok k lk t sfk lookf p0 : k <> LALR -> canon g lk (t_kernels t) (t_states t) -> lr0 g start eof p0 (t_states t) sfk lookf (t_actions t) ->
  (forall q, q < length (t_states t) -> exists qs Xs, path (t_states t) sfk (q :: qs) Xs) -> states_ok k t.
Proof.
  intros Nk HC L R. pose proof HC as [C _].
  assert (Ex : forall i, i < length (t_states t) -> exists kernel, bm_get kernel (t_kernels t) = Some i).
  { intros [|i] Hi; [exists []; apply (ci_nil _ _ _ C)|]. destruct (ci_sts _ _ _ C (S i)) as (kn & _ & Hk); [cbn [snd]; lia|]. eauto. }
  split; [|split; [|split; [|split; [|split]]]].
  - apply nth_NoDup. intros i j row Ei Ej.
    destruct (Ex i) as (k1 & H1); [apply nth_error_Some; congruence|]. destruct (Ex j) as (k2 & H2); [apply nth_error_Some; congruence|].
    destruct (Nat.eq_dec i 0) as [->|Ni], (Nat.eq_dec j 0) as [->|Nj]; auto.
    + exfalso. destruct (canon_key _ _ _ _ _ HC H2 Nj) as (row' & E' & K & Ne). assert (row' = row) as -> by congruence. destruct k2 as [|b l]; [easy|].
      destruct (proj1 (K b) (or_introl eq_refl)) as [Hb Hz]. rewrite (canon_zero _ _ _ _ _ HC Ei Hb) in Hz. lia.
    + exfalso. destruct (canon_key _ _ _ _ _ HC H1 Ni) as (row' & E' & K & Ne). assert (row' = row) as -> by congruence. destruct k1 as [|b l]; [easy|].
      destruct (proj1 (K b) (or_introl eq_refl)) as [Hb Hz]. rewrite (canon_zero _ _ _ _ _ HC Ej Hb) in Hz. lia.
    + destruct (canon_key _ _ _ _ _ HC H1 Ni) as (r1 & E1 & K1 & _). destruct (canon_key _ _ _ _ _ HC H2 Nj) as (r2 & E2 & K2 & _).
      assert (r1 = row) as -> by congruence. assert (r2 = row) as -> by congruence.
      assert (k1 = k2) as <-; [|congruence]. apply sorted_ext; eauto using canon_sorted. intros b. rewrite K1, K2. tauto.
  - intros q Hq. destruct (R q Hq) as (qs & xs & P). exists qs, xs. eapply path_moves; eauto.
  - apply values_numbers; [apply (ci_sorted _ _ _ C)|exact Ex| |intros; eapply canon_keys; eauto].
    intros kn i Hk. destruct (Nat.eq_dec i 0) as [->|N].
    + destruct (ci_zero _ _ _ C) as (s0 & E0 & _). cbn [snd] in E0. apply nth_error_Some. congruence.
    + destruct (canon_key _ _ _ _ _ HC Hk N) as (row & E & _). apply nth_error_Some. congruence.
  - apply (ci_nil _ _ _ C).
  - intros kn q Hk N. destruct (canon_key _ _ _ _ _ HC Hk N) as (row & E & K & _). exists row. split; auto. split; auto.
    intros A pr i. split.
    + intros (l & Hl). apply K in Hl as [Hl Hz]. simpl in Hz. eauto.
    + intros [Hz (l & Hl)]. exists l. apply K. auto.
  - intros row pos. apply (canon_zero _ _ _ _ _ HC).
Qed.

Section L.
Variables (t t' : tabler T) (p : lalr T) (fuel : nat).
Hypothesis F : tabler_facts dbg start eof rules g t.
Hypothesis Hl : lalr_with_table dbg fuel t = Val (t', p).

Lemma cores_alike i j row row' : nth_error (l_states p) i = Some row -> nth_error (l_states p) j = Some row' -> same_core row row' -> alike (l_states p) i j.
Proof.
  intros Ei Ej H A pr k. split; intros (r & l & E & Hin).
  - assert (r = row) as -> by congruence. destruct (proj1 (H A pr k)) as (l' & H'); eauto. exists row', l'. auto.
  - assert (r = row') as -> by congruence. destruct (proj2 (H A pr k)) as (l' & H'); eauto. exists row, l'. auto.
Qed.
Lemma lalr_cores i j row row' : nth_error (t_states t') i = Some row -> nth_error (t_states t') j = Some row' -> same_core row row' -> i = j.
Proof.
  destruct (lalr_inv _ _ _ _ _ W Hg _ F _ _ _ Hl) as (_ & _ & _ & -> & _). intros Ei Ej H.
  eapply lalr_inj; eauto using cores_alike; apply nth_error_Some; congruence.
Qed.

Lemma lalr_ok : states_ok LALR t'.
Proof.
  destruct (lalr_inv _ _ _ _ _ W Hg _ F _ _ _ Hl) as (_ & _ & _ & Es & Ek & HC & _).
  specialize (HC _ (Qtrue _ _ _ _)) as [HI _]. destruct (Wp0 _ _ _ _ _ W Hg) as (p0 & Hp0 & _).
  pose proof (lalr_lr0 _ _ _ _ _ W Hg _ F _ _ _ Hl _ Hp0) as L.
  assert (Key : forall kernel q, bm_get kernel (l_kernels p) = Some q -> q <> 0 -> kernel <> [] /\ bm_get (without_look kernel) (l_raws p) = Some kernel /\
     exists row, nth_error (l_states p) q = Some row /\ kernel_of LALR kernel row).
  { intros kn q Hk N. assert (kn <> []) as Nk by (intros ->; pose proof (li_nil _ _ _ _ _ HI); congruence). split; auto.
    pose proof (li_ker _ _ _ _ _ HI _ _ Hk Nk) as Hr. split; auto. pose proof (wl_ne _ Nk) as Nw.
    pose proof (raw_pos _ _ _ _ _ _ _ HI Hr Nw) as Hp.
    destruct (li_raw _ _ _ _ _ HI _ _ Hr Nw) as [_ _ _ (n & row & A1 & A2 & A3 & A4 & _)].
    assert (n = q) as -> by congruence. exists row. split; auto. split; [|congruence].
    intros A pr i. pose proof (row_raw _ _ _ A4 Hp (mkPos A pr i [])) as X. rewrite !without_look_in in X. cbn [p_point] in X. split.
    - intros (l & H). destruct (proj1 X) as [([A' pr' i' l'] & H1 & H2) H3]; [exists (mkPos A pr i l); auto|]. injection H2 as -> -> ->. eauto.
    - intros (H3 & l & H). destruct (proj2 X) as ([A' pr' i' l'] & H1 & H2); [split; auto; exists (mkPos A pr i l); auto|]. injection H2 as -> -> ->. eauto. }
  assert (Zero : forall row pos, nth_error (l_states p) 0 = Some row -> In pos row -> p_point pos = 0).
  { intros row pos E Hin. destruct (li_zero _ _ _ _ _ HI) as (s0 & E0 & _ & H0). assert (row = s0) as -> by congruence.
    apply H0, clo_point in Hin as [[Hin|[]]|Hin]; auto. rewrite Hp0 in Hin. now subst. }
  unfold states_ok. rewrite Es, Ek. split; [|split; [|split; [|split; [|split]]]]; auto.
  - apply nth_NoDup. intros i j row Ei Ej. rewrite <- Es in Ei, Ej. eapply lalr_cores; eauto. intros A pr k. tauto.
  - intros q Hq. destruct (lalr_reach _ _ _ _ _ W Hg _ F _ _ _ Hl q Hq) as (qs & xs & P). exists qs, xs. rewrite <- Es in L, P. eapply path_moves; eauto.
  - apply values_numbers.
    + exact (li_ks _ _ _ _ _ HI).
    + intros [|i] Hi; [exists []; exact (li_nil _ _ _ _ _ HI)|]. destruct (li_sts _ _ _ _ _ HI (S i)) as (kn & _ & Hk); [lia|]. eauto.
    + intros kn i Hk. destruct (Nat.eq_dec i 0) as [->|N].
      * destruct (li_zero _ _ _ _ _ HI) as (s0 & E0 & _). apply nth_error_Some. congruence.
      * destruct (Key _ _ Hk N) as (_ & _ & row & E & _). apply nth_error_Some. congruence.
    + intros k1 k2 i H1 H2. destruct (Nat.eq_dec i 0) as [->|N].
      * assert (Z : forall kn, bm_get kn (l_kernels p) = Some 0 -> kn = []).
        { intros kn Hk. destruct kn as [|b l]; auto. exfalso. assert (b :: l <> []) as Nb by discriminate. pose proof (li_ker _ _ _ _ _ HI _ _ Hk Nb) as Hr.
          destruct (li_raw _ _ _ _ _ HI _ _ Hr (wl_ne _ Nb)) as [_ _ _ (n & row & A1 & A2 & _)]. assert (n = 0) by congruence. lia. }
        rewrite (Z _ H1), (Z _ H2). auto.
      * destruct (Key _ _ H1 N) as (N1 & R1 & _). destruct (Key _ _ H2 N) as (N2 & R2 & _).
        pose proof (raw_inj _ _ _ _ _ _ _ _ _ _ HI (wl_ne _ N1) (wl_ne _ N2) R1 R2 H1 H2) as E. congruence.
  - exact (li_nil _ _ _ _ _ HI).
  - intros kn q Hk N. destruct (Key _ _ Hk N) as (_ & _ & H). exact H.
Qed.
End L.

Lemma makes_states k t : makes k dbg g t -> states_ok k t.
Proof.
  intros Hm. destruct (makes_tabler _ _ _ _ _ W Hg _ _ Hm) as (tb & _ & F & fm & Em). destruct (Wp0 _ _ _ _ _ W Hg) as (p0 & Hp0 & _).
  destruct k.
  - destruct (slr_inv _ _ _ _ _ W Hg _ F _ _ Em) as (_ & _ & _ & HC & _). eapply canon_ok; eauto; [discriminate|exact (slr_lr0 _ _ _ _ _ W Hg _ F _ _ Em _ Hp0)|exact (canon_reach _ _ _ _ HC)].
  - destruct (clr_inv _ _ _ _ _ W Hg _ F _ _ Em) as (_ & _ & _ & HC & _). eapply canon_ok; eauto; [discriminate|exact (clr_lr0 _ _ _ _ _ W Hg _ F _ _ Em _ Hp0)|exact (canon_reach _ _ _ _ HC)].
  - destruct Em as (p & Em). eapply lalr_ok; eauto.
Qed.
Lemma makes_cores t i j row row' : makes LALR dbg g t -> nth_error (t_states t) i = Some row -> nth_error (t_states t) j = Some row' -> same_core row row' -> i = j.
Proof.
  intros Hm. destruct (makes_tabler _ _ _ _ _ W Hg _ _ Hm) as (tb & _ & F & fm & p & Em). eapply lalr_cores; eauto.
Qed.
End States.
