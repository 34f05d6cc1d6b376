(** [reduce_equals] applied again and again (C82). *)
From Coq Require Import List Bool Arith Lia.
From Verif Require Import BTree Model Base Spec ActTab LR Interface Wrap Reduce.
Import ListNotations.

(** [n] calls of [reduce_equals] *)
Fixpoint reduce_times {T} {OT : Ord T} (dbg : bool) (n : nat) (t : tabler T) : res (tabler T) :=
  match n with
  | 0 => Val t
  | S n => do t' <- reduce_equals dbg t; reduce_times dbg n t'
  end.

Section Iter.
Context {T : Type} {OT : Ord T}.

Record fit (t : tabler T) : Prop := {
  f_closed : closed_table (t_actions t);
  f_len : length (t_actions t) <= length (t_states t);
  f_sorted : forall row, In row (t_actions t) -> msorted row;
  f_some : t_actions t <> []
}.

Lemma ren_row_sorted f (row : bmap T (action T)) : msorted row -> msorted (ren_row f row).
Proof. unfold msorted. change (map fst (ren_row f row)) with (bm_keys (ren_row f row)). rewrite ren_row_keys. auto. Qed.

Lemma ren_mentions f (a : action T) n : mentions (ren f a) n -> exists m, mentions a m /\ n = f m.
Proof.
  induction a as [x|x|x p| |a1 IH1 a2 IH2]; simpl; try contradiction; eauto.
  intros [H|H]; [apply IH1 in H|apply IH2 in H]; destruct H as (m & H & ->); eauto.
Qed.

Lemma reduce_states dbg (t t' : tabler T) : reduce_equals dbg t = Val t' -> t_states t' = t_states t /\ t_kernels t' = t_kernels t.
Proof. unfold reduce_equals. intros E. apply bind_val in E as ([tv ac] & _ & E). apply bind_val in E as (acts & _ & [= <-]). auto. Qed.

(** one call keeps the table well formed and changes parse results only by renumbering *)
Lemma reduce_once dbg (t : tabler T) : fit t -> exists f t', reduce_equals dbg t = Val t' /\ fit t' /\ f 0 = 0 /\
  length (t_actions t') <= length (t_actions t) /\
  (forall q row, nth_error (t_actions t) q = Some row -> nth_error (t_actions t') (f q) = Some (ren_row f row)) /\
  (length (t_actions t') = length (t_actions t) -> NoDup (t_actions t)) /\
  forall M (maps : reductmap T M) input fuel,
    parser_parse fuel t' input maps = match parser_parse fuel t input maps with Val r => Val (ren_res f r) | x => x end.
Proof.
  intros [Hc Hl Hs Hne]. destruct (reduce_spec dbg t Hc Hl Hs Hne) as (f & t' & E & Eg & F0 & H1 & H2 & H3 & H4).
  assert (H2' : forall q, q < length (t_actions t) -> exists row, nth_error (t_actions t) q = Some row /\ nth_error (t_actions t') (f q) = Some (ren_row f row)).
  { intros q Hq. apply nth_error_Some in Hq. destruct (nth_error (t_actions t) q) as [row|] eqn:Er; [|congruence]. exists row. auto. }
  assert (H3' : forall row, In row (t_actions t') -> exists q row0, nth_error (t_actions t) q = Some row0 /\ row = ren_row f row0).
  { intros row Hr. apply in_nth_error in Hr as (q & Hq). destruct (H3 _ _ Hq) as (q' & Hlt & <-).
    destruct (H2' _ Hlt) as (row0 & E1 & E2). exists q', row0. split; auto. congruence. }
  destruct (reduce_states _ _ _ E) as [Es _].
  exists f, t'. split; auto. split; [|split; [auto|split; [auto|split; [auto|split]]]].
  - constructor.
    + intros q row s a n Hq Ha Hn. destruct (H3' row) as (q' & row0 & E0 & ->); [eapply nth_error_In; eauto|].
      rewrite ren_row_get in Ha. destruct (bm_get s row0) as [a0|] eqn:Ea; [|discriminate]. simpl in Ha. injection Ha as <-.
      apply ren_mentions in Hn as (m & Hm & ->). destruct (H2' m) as (r & _ & Er); [eapply Hc; eauto|]. apply nth_error_Some. congruence.
    + rewrite Es. lia.
    + intros row Hr. destruct (H3' row Hr) as (q' & row0 & E0 & ->). apply ren_row_sorted, Hs. eapply nth_error_In; eauto.
    + intros E0. destruct (t_actions t) as [|r0 l] eqn:Et; [congruence|]. pose proof (H2 0 r0 eq_refl) as H0. rewrite E0 in H0. destruct (f 0); discriminate.
  - intros Elen. apply NoDup_nth_error. intros i j Hi Hij.
    assert (Hj : j < length (t_actions t)). { apply nth_error_Some. rewrite <- Hij. now apply nth_error_Some. }
    apply H4 in Hij; auto.
    assert (ND : NoDup (map f (seq 0 (length (t_actions t))))).
    { apply (NoDup_incl_NoDup (l := seq 0 (length (t_actions t')))).
      - apply seq_NoDup.
      - rewrite map_length, !seq_length. lia.
      - intros q Hq. apply in_seq in Hq as [_ Hq]. simpl in Hq. apply nth_error_Some in Hq.
        destruct (nth_error (t_actions t') q) as [row|] eqn:Eq; [|congruence]. destruct (H3 _ _ Eq) as (q' & Hq' & <-).
        apply in_map. apply in_seq. lia. }
    pose proof (proj1 (NoDup_nth_error _) ND i j) as Hij'. rewrite map_length, seq_length in Hij'. apply Hij'; auto.
    assert (forall n x, n < x -> nth_error (seq 0 x) n = Some n) as Hseq.
    { intros n x Hnx. rewrite (nth_error_nth' _ 0) by (rewrite seq_length; lia). now rewrite seq_nth. }
    rewrite !nth_error_map, !Hseq by auto. simpl. now f_equal.
  - intros M maps input fuel. unfold parser_parse, parser_dfa. rewrite Eg.
    destruct (expect P_index _) as [e| |]; [|reflexivity..]. cbn [bind].
    assert (dfa_new input (t_actions t') maps e = rend (t_actions t') f (dfa_new input (t_actions t) maps e)) as ->.
    { unfold rend, dfa_new. cbn [d_items d_reductors d_states d_buffer d_table d_finished d_eof d_top map]. now rewrite F0. }
    rewrite (start_ren (t_actions t) (t_actions t') f Hc H2).
    + destruct (dfa_start fuel (dfa_new input (t_actions t) maps e)) as [[d' [|er]]| |]; cbn [rmap bind renp fst snd reno]; [|reflexivity..].
      cbn [rend d_items]. destruct (d_items d'); reflexivity.
    + assert (0 < length (t_actions t)) by (destruct (t_actions t); simpl; [congruence|lia]).
      split; [reflexivity|]. cbn [dfa_new d_top d_states]. auto.
Qed.

(** *** a table without equal rows is left alone *)
Lemma ren_id f (a : action T) : (forall n, mentions a n -> f n = n) -> ren f a = a.
Proof.
  induction a as [x|x|x p| |a1 IH1 a2 IH2]; simpl; intros H; auto. rewrite IH1, IH2; auto.
Qed.

Lemma fold_distinct todo : forall (done : acttable T) am tv,
  (forall row, In row todo -> ~ In row done) -> NoDup todo -> (forall row, bm_get row am <> None -> In row done) ->
  (forall i, i < length done -> bm_get i tv = Some i) ->
  exists am' tv', foldM reduced_step (enum_from (length done) todo) (am, tv, done) = Val (am', tv', done ++ todo) /\
    (forall i, i < length (done ++ todo) -> bm_get i tv' = Some i).
Proof.
  induction todo as [|row todo IH]; intros done am tv Hd Hn Ha Ht.
  - exists am, tv. rewrite app_nil_r. auto.
  - cbn [enum_from foldM]. unfold reduced_step at 1. inversion Hn as [|? ? N1 N2]; subst.
    assert (bm_mem row am = false) as Em.
    { destruct (bm_mem row am) eqn:E; auto. exfalso. apply bm_mem_keys, bm_get_keys in E as (j & Ej). apply (Hd row); [now left|].
      apply Ha. congruence. }
    rewrite Em. cbn [negb]. rewrite bm_get_insert_eq. cbn [expect bind].
    destruct (IH (done ++ [row]) (bm_insert row (length done) am) (bm_insert (length done) (length done) tv)) as (am' & tv' & E & H).
    + intros r Hr Hin. apply in_app_iff in Hin as [Hin|[E|[]]]; [|congruence]. apply (Hd r); [now right|auto].
    + auto.
    + intros r. rewrite bm_get_insert. intros Hr. apply in_app_iff. destruct (eqb_spec r row) as [E|]; [subst; right; now left|]. auto.
    + intros i Hi. rewrite app_length in Hi. simpl in Hi. rewrite bm_get_insert. destruct (eqb_spec i (length done)) as [->|]; auto. apply Ht. lia.
    + rewrite app_length, Nat.add_1_r in E. rewrite <- app_assoc in E, H. cbn [app] in E, H. exists am', tv'. auto.
Qed.

Lemma reduce_fixed dbg (t : tabler T) : fit t -> NoDup (t_actions t) -> reduce_equals dbg t = Val t.
Proof.
  intros [Hc Hl Hs Hne] Hn. unfold reduce_equals, reduced_actions.
  destruct (fold_distinct (t_actions t) [] [] []) as (am & tv & E & H); auto; try (intros ? Hx; exfalso; now apply Hx).
  { intros i Hi. inversion Hi. }
  cbn [length app] in *.
  match type of E with _ = ?r => match goal with |- context [foldM ?a ?b ?c] => replace (foldM a b c) with r by (symmetry; exact E) end end.
  cbn [bind].
  replace (length (t_actions t) <=? length (t_states t)) with true by (symmetry; apply Nat.leb_le; lia).
  rewrite dassert_true. cbn [bind].
  rewrite (mapM_map _ (fun row => row)).
  - rewrite map_id. cbn [bind]. now destruct t.
  - intros row Hrow. rewrite (mapM_map _ (fun e => e)); [now rewrite map_id|]. intros [k a] Ha. cbn [fst snd].
    pose proof (Hs _ Hrow) as Hsr. apply in_nth_error in Hrow as (q & Hq).
    assert (forall n, mentions a n -> n < length (t_actions t)) as Hm. { intros n. apply (Hc q row k a n Hq). now apply bm_in_get. }
    rewrite (update_ok tv (fun n => n)).
    + cbn [bind]. now rewrite ren_id.
    + intros n Hna. exists n. auto.
Qed.

Lemma ren_ren f g (a : action T) : ren g (ren f a) = ren (fun n => g (f n)) a.
Proof. induction a; simpl; congruence. Qed.

Lemma times_fixed dbg n (t : tabler T) : fit t -> NoDup (t_actions t) -> reduce_times dbg n t = Val t.
Proof. intros F N. induction n as [|n IH]; [reflexivity|]. cbn [reduce_times]. rewrite (reduce_fixed dbg t F N). exact IH. Qed.

(** [n] calls return; enough of them leave no two equal rows, and then further ones change nothing *)
Lemma reduce_many dbg n : forall t : tabler T, fit t -> exists f t', reduce_times dbg n t = Val t' /\ fit t' /\ f 0 = 0 /\
  length (t_actions t') <= length (t_actions t) /\
  (forall q row, nth_error (t_actions t) q = Some row -> nth_error (t_actions t') (f q) = Some (ren_row f row)) /\
  (forall M (maps : reductmap T M) input fuel,
    parser_parse fuel t' input maps = match parser_parse fuel t input maps with Val r => Val (ren_res f r) | x => x end) /\
  (length (t_actions t) <= S n -> NoDup (t_actions t')).
Proof.
  induction n as [|n IH]; intros t F.
  - exists (fun n => n), t. split; [reflexivity|]. split; auto. split; auto. split; auto. split; [|split].
    + intros q row Hq. rewrite Hq. f_equal. unfold ren_row. rewrite <- (map_id row) at 1. apply map_ext_in. intros [k a] Ha. cbn [fst snd]. f_equal.
      symmetry. now apply ren_id.
    + intros M maps input fuel. destruct (parser_parse fuel t input maps) as [r| |]; auto. f_equal. destruct r as [m|e]; auto.
      cbn [ren_res]. f_equal. destruct e; auto. cbn [ren_err]. rewrite !ren_id; auto.
    + intros Hl. destruct (t_actions t) as [|r [|r' l]]; simpl in Hl; [constructor|repeat constructor; auto|lia].
  - destruct (reduce_once dbg t F) as (f & t1 & E1 & F1 & F0 & L1 & R1 & N1 & P1).
    destruct (IH t1 F1) as (f2 & t2 & E2 & F2 & F02 & L2 & R2 & P2 & D2).
    exists (fun n => f2 (f n)), t2. cbn [reduce_times]. rewrite E1. cbn [bind]. split; auto. split; auto. split; [now rewrite F0|]. split; [lia|]. split; [|split].
    + intros q row Hq. rewrite (R2 _ _ (R1 _ _ Hq)). f_equal. unfold ren_row. rewrite map_map. apply map_ext. intros [k a]. cbn [fst snd]. now rewrite ren_ren.
    + intros M maps input fuel. rewrite P2, P1. destruct (parser_parse fuel t input maps) as [r| |]; auto. f_equal. destruct r as [m|e]; auto.
      cbn [ren_res]. f_equal. destruct e; auto. cbn [ren_err]. now rewrite !ren_ren.
    + intros Hl. destruct (Nat.eq_dec (length (t_actions t1)) (length (t_actions t))) as [Eq|Ne].
      * specialize (N1 Eq). rewrite (reduce_fixed dbg t F N1) in E1. injection E1 as <-.
        rewrite (times_fixed dbg n t F N1) in E2. injection E2 as <-. exact N1.
      * apply D2. lia.
Qed.

Lemma reduce_until dbg start eof rules (g : grammar T) k t : wf_rules rules -> grammar_new dbg start rules eof = Val g -> makes k dbg g t ->
  forall n, exists f t', reduce_times dbg n t = Val t' /\
  (forall M (maps : reductmap T M) input fuel,
    parser_parse fuel t' input maps = match parser_parse fuel t input maps with Val r => Val (ren_res f r) | x => x end) /\
  (length (t_actions t) <= S n -> NoDup (t_actions t') /\ reduce_equals dbg t' = Val t') /\
  t_states t' = t_states t /\ t_kernels t' = t_kernels t.
Proof.
  intros W Hg Hm n. destruct (makes_closed _ _ _ _ _ W Hg _ _ Hm) as (H1 & H2 & H3 & H4).
  assert (F : fit t) by (constructor; auto; lia).
  destruct (reduce_many dbg n t F) as (f & t' & E & F' & _ & _ & _ & P & D). exists f, t'. split; auto. split; auto. split.
  - intros Hl. specialize (D Hl). split; auto. now apply reduce_fixed.
  - clear - E. revert t E. induction n as [|n IH]; intros t E; cbn [reduce_times] in E; [injection E as <-; auto|].
    apply bind_val in E as (t1 & E1 & E2). apply reduce_states in E1 as [<- <-]. now apply IH.
Qed.

Lemma reduce_distinct dbg start eof rules (g : grammar T) k t : wf_rules rules -> grammar_new dbg start rules eof = Val g -> makes k dbg g t ->
  NoDup (t_actions t) -> reduce_equals dbg t = Val t.
Proof.
  intros W Hg Hm. destruct (makes_closed _ _ _ _ _ W Hg _ _ Hm) as (H1 & H2 & H3 & H4). apply reduce_fixed. constructor; auto; lia.
Qed.
End Iter.
