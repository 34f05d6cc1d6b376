(** [reduce_equals] only renumbers states (C25). *)
From Coq Require Import List Bool Arith Lia.
From Verif Require Import BTree Model Base Spec ActTab LR Interface Wrap.
Import ListNotations.

(** an action with its state numbers renamed *)
Fixpoint ren {T} (f : nat -> nat) (a : action T) : action T :=
  match a with
  | Shift n => Shift (f n)
  | Goto n => Goto (f n)
  | Conflict a b => Conflict (ren f a) (ren f b)
  | a => a
  end.

(** an error with the state numbers inside a reported conflict renamed *)
Definition ren_err {T} (f : nat -> nat) (e : error T) : error T :=
  match e with ConflictErr a b => ConflictErr (ren f a) (ren f b) | e => e end.
Definition ren_res {T M} (f : nat -> nat) (r : presult T M) : presult T M :=
  match r with PErr e => PErr (ren_err f e) | r => r end.

Definition rmap {A B} (h : A -> B) (r : res A) : res B :=
  match r with Val a => Val (h a) | Panic p => Panic p | Fuel => Fuel end.

Section Reduce.
Context {T : Type} {OT : Ord T}.

(** the state numbers an action mentions *)
Fixpoint mentions (a : action T) (n : nat) : Prop :=
  match a with
  | Shift m => n = m
  | Goto m => n = m
  | Conflict a b => mentions a n \/ mentions b n
  | _ => False
  end.

Definition ren_row (f : nat -> nat) (row : bmap T (action T)) : bmap T (action T) := map (fun e => (fst e, ren f (snd e))) row.

Lemma ren_row_keys f row : bm_keys (ren_row f row) = bm_keys row.
Proof. unfold ren_row, bm_keys. rewrite map_map. reflexivity. Qed.

Lemma ren_row_get f (row : bmap T (action T)) s : bm_get s (ren_row f row) = option_map (ren f) (bm_get s row).
Proof. induction row as [|[k a] row IH]; simpl; auto. destruct (eqb s k); auto. Qed.

(** every state number in the table is the number of a row *)
Definition closed_table (A : acttable T) : Prop :=
  forall q row s a n, nth_error A q = Some row -> bm_get s row = Some a -> mentions a n -> n < length A.

Section Sim.
Variables (A B : acttable T) (f : nat -> nat).
Hypothesis HA : closed_table A.
Hypothesis HB : forall q row, nth_error A q = Some row -> nth_error B (f q) = Some (ren_row f row).
Context {M : Type}.
Notation dfa := (dfa T M).

Definition rend (d : dfa) : dfa :=
  mkDfa (d_buffer d) (map f (d_states d)) (d_items d) B (f (d_top d)) (d_finished d) (d_reductors d) (d_eof d).
Definition reno (o : outcome T) : outcome T := match o with Err e => Err (ren_err f e) | Ok => Ok end.
Definition good (d : dfa) : Prop := d_table d = A /\ d_top d < length A /\ Forall (fun q => q < length A) (d_states d).

Lemma rend_pop d name pr : dfa_pop (rend d) name pr = rmap rend (dfa_pop d name pr).
Proof.
  unfold dfa_pop, rend. cbn [d_items d_reductors d_states d_buffer d_table d_finished d_eof d_top].
  destruct (length (d_items d) <? length (fst pr)); [reflexivity|].
  destruct (bm_get name (d_reductors d)) as [fs|]; [|reflexivity]. cbn [expect bind rmap].
  destruct (nth_error fs (snd pr)) as [h|]; [|reflexivity]. cbn [expect bind rmap].
  rewrite nth_error_map. destruct (nth_error (d_states d) (length (fst pr))) as [q|]; [|reflexivity].
  cbn [expect bind rmap option_map d_items d_reductors d_states d_buffer d_table d_finished d_eof d_top]. now rewrite skipn_map.
Qed.

Lemma pop_good d name pr d' : good d -> dfa_pop d name pr = Val d' -> good d'.
Proof.
  intros (H1 & H2 & H3) E. unfold dfa_pop in E. destruct (length (d_items d) <? length (fst pr)); [discriminate|].
  apply bind_val in E as (fs & _ & E). apply bind_val in E as (h & _ & E). apply bind_val in E as (q & Eq & [= <-]).
  apply expect_val in Eq. split; auto. cbn [d_top d_states]. split.
  - rewrite Forall_forall in H3. apply H3. eapply nth_error_In; eauto.
  - apply Forall_forall. intros x Hx. rewrite Forall_forall in H3. apply H3. rewrite <- (firstn_skipn (length (fst pr)) (d_states d)).
    apply in_app_iff. auto.
Qed.

Definition renp (r : dfa * outcome T) : dfa * outcome T := (rend (fst r), reno (snd r)).

Lemma travel_ren fuel : forall d s, good d -> travel fuel (rend d) s = rmap renp (travel fuel d s) /\
  (forall r, travel fuel d s = Val r -> good (fst r)).
Proof.
  induction fuel as [|n IH]; intros d s G; [split; [reflexivity|discriminate]|].
  pose proof G as (G1 & G2 & G3). cbn [travel]. change (d_table (rend d)) with B. change (d_top (rend d)) with (f (d_top d)).
  rewrite G1. apply nth_error_Some in G2 as G2'. destruct (nth_error A (d_top d)) as [row|] eqn:Er; [|congruence].
  rewrite (HB _ _ Er), ren_row_get. destruct (bm_get s row) as [a|] eqn:Ea; cbn [option_map].
  - assert (forall m, mentions a m -> m < length A) as Hm by (intros m; eapply HA; eauto).
    destruct a as [to|to|name pr| |a b]; cbn [ren mentions] in *.
    + unfold dfa_shift. change (d_buffer (rend d)) with (d_buffer d). destruct (d_buffer d) as [|tok rest].
      * split; [reflexivity|]. intros r [= <-]. exact G.
      * split; [cbn [rmap]; f_equal; unfold renp, rend; cbn; reflexivity|]. intros r [= <-]. cbn [fst]. split; auto. cbn [d_top d_states]. auto.
    + split; [reflexivity|]. intros r [= <-]. cbn [fst dfa_goto]. split; auto. cbn [d_top d_states]. auto.
    + rewrite rend_pop. destruct (dfa_pop d name pr) as [d'| |] eqn:Ep; cbn [rmap bind]; [|split; [reflexivity|discriminate]..].
      apply IH. eapply pop_good; eauto.
    + split.
      * unfold dfa_accept. change (d_buffer (rend d)) with (d_buffer d). cbn [rmap renp fst snd]. destruct (d_buffer d); reflexivity.
      * intros r [= <-]. exact G.
    + split; [reflexivity|]. intros r [= <-]. exact G.
  - split; [|intros r [= <-]; exact G]. rewrite ren_row_keys. reflexivity.
Qed.

Lemma start_ren fuel : forall d, good d -> dfa_start fuel (rend d) = rmap renp (dfa_start fuel d).
Proof.
  induction fuel as [|n IH]; intros d G; [reflexivity|]. cbn [dfa_start]. change (d_finished (rend d)) with (d_finished d).
  destruct (d_finished d); [reflexivity|]. change (lookahead (rend d)) with (lookahead d).
  destruct (travel_ren n d (lookahead d) G) as [-> Hg]. destruct (travel n d (lookahead d)) as [[d' o]| |]; [|reflexivity..].
  cbn [rmap bind renp fst snd]. destruct o as [|e]; cbn [reno]; [|reflexivity]. apply IH. exact (Hg _ eq_refl).
Qed.
End Sim.

(** ** what [reduced_actions] computes *)
Notation row_t := (bmap T (action T)).
Record rinv (done : acttable T) (st : bmap row_t nat * bmap nat nat * acttable T) : Prop := {
  ri_am : forall row j, bm_get row (fst (fst st)) = Some j -> nth_error (snd st) j = Some row;
  ri_am' : forall row, In row (snd st) -> exists j, bm_get row (fst (fst st)) = Some j;
  ri_travel : forall i row, nth_error done i = Some row -> exists j, bm_get i (snd (fst st)) = Some j /\ nth_error (snd st) j = Some row;
  ri_keys : forall i j, bm_get i (snd (fst st)) = Some j -> i < length done;
  ri_nodup : NoDup (snd st);
  ri_incl : incl (snd st) done;
  ri_len : length (snd st) <= length done;
  ri_hd : hd_error (snd st) = hd_error done
}.

Lemma reduced_step_ok done row st : rinv done st -> exists st', reduced_step st (row, length done) = Val st' /\ rinv (done ++ [row]) st'.
Proof.
  destruct st as [[am tv] ac]. intros [H1 H2 H3 H4 H5 H6 H7 H8]. cbn [fst snd] in *. unfold reduced_step.
  destruct (bm_mem row am) eqn:Em; cbn [negb].
  - apply bm_mem_keys, bm_get_keys in Em as (j & Ej). rewrite Ej. cbn [expect bind]. eexists. split; [reflexivity|].
    constructor; cbn [fst snd]; auto.
    + intros i r Hi. rewrite bm_get_insert. destruct (eqb_spec i (length done)) as [->|N].
      * rewrite nth_error_app2, Nat.sub_diag in Hi by lia. simpl in Hi. injection Hi as <-. eauto.
      * apply H3. rewrite nth_error_app1 in Hi; auto. 
        assert (i < length (done ++ [row])) by (apply nth_error_Some; congruence). rewrite app_length in *. simpl in *. lia.
    + intros i j'. rewrite bm_get_insert, app_length. destruct (eqb_spec i (length done)) as [->|N]; simpl; [lia|]. intros Hi. apply H4 in Hi. lia.
    + intros x Hx. apply in_app_iff. auto.
    + rewrite app_length. simpl. lia.
    + rewrite H8. destruct done; auto. destruct ac; simpl in *; [|discriminate]. apply H1 in Ej. destruct j; discriminate.
  - assert (~ In row ac) as Nin.
    { intros Hin. apply H2 in Hin as Hg. apply bm_get_keys, bm_mem_keys in Hg. congruence. }
    rewrite bm_get_insert_eq. cbn [expect bind]. eexists. split; [reflexivity|].
    constructor; cbn [fst snd].
    + intros r j. rewrite bm_get_insert. destruct (eqb_spec r row) as [->|N].
      * intros [= <-]. rewrite nth_error_app2, Nat.sub_diag by lia. reflexivity.
      * intros Hj. apply H1 in Hj. rewrite nth_error_app1; auto. apply nth_error_Some. congruence.
    + intros r Hr. rewrite bm_get_insert. destruct (eqb_spec r row) as [->|N]; eauto. apply in_app_iff in Hr as [Hr|[Hr|[]]]; [auto|congruence].
    + intros i r Hi. rewrite bm_get_insert. destruct (eqb_spec i (length done)) as [->|N].
      * rewrite nth_error_app2, Nat.sub_diag in Hi by lia. simpl in Hi. injection Hi as <-. exists (length ac). split; auto.
        rewrite nth_error_app2, Nat.sub_diag by lia. reflexivity.
      * assert (i < length (done ++ [row])) as Hlt by (apply nth_error_Some; congruence). rewrite app_length in Hlt. simpl in Hlt.
        rewrite nth_error_app1 in Hi by lia. apply H3 in Hi as (j & Hj & Hn). exists j. split; auto.
        rewrite nth_error_app1; auto. apply nth_error_Some. congruence.
    + intros i j'. rewrite bm_get_insert, app_length. destruct (eqb_spec i (length done)) as [->|N]; simpl; [lia|]. intros Hi. apply H4 in Hi. lia.
    + apply (NoDup_Add (a := row) (l := ac)); [|auto]. rewrite <- (app_nil_r ac) at 1. apply Add_app.
    + intros x Hx. apply in_app_iff in Hx as [Hx|Hx]; apply in_app_iff; auto.
    + rewrite !app_length. simpl. lia.
    + destruct ac, done; simpl in *; try congruence; auto.
Qed.

Lemma reduced_fold todo : forall done st, rinv done st ->
  exists st', foldM reduced_step (enum_from (length done) todo) st = Val st' /\ rinv (done ++ todo) st'.
Proof.
  induction todo as [|row todo IH]; intros done st H.
  - exists st. rewrite app_nil_r. auto.
  - destruct (reduced_step_ok done row st H) as (st1 & E1 & H1). destruct (IH _ _ H1) as (st2 & E2 & H2).
    exists st2. cbn [enum_from foldM]. rewrite E1. cbn [bind]. rewrite app_length, Nat.add_1_r in E2. rewrite <- app_assoc in H2. auto.
Qed.

Lemma rinv_nil : rinv [] ([], [], []).
Proof.
  constructor; cbn [fst snd]; auto; try (intros ? ? H; discriminate H).
  - intros ? [].
  - intros [|n] r H; discriminate H.
  - constructor.
  - intros ? [].
Qed.

Lemma update_ok tv f a : (forall n, mentions a n -> exists m, bm_get n tv = Some m /\ f n = m) -> update_entry tv a = Val (ren f a).
Proof.
  induction a as [n|n|x p| |a1 IH1 a2 IH2]; simpl; intros H; auto.
  - destruct (H n eq_refl) as (m & -> & ->). reflexivity.
  - destruct (H n eq_refl) as (m & -> & ->). reflexivity.
  - rewrite IH1, IH2 by auto. reflexivity.
Qed.

Lemma mapM_map {A B} (h : A -> res B) (k : A -> B) l : (forall x, In x l -> h x = Val (k x)) -> mapM h l = Val (map k l).
Proof.
  induction l as [|x l IH]; intros H; [reflexivity|]. simpl. rewrite (H x) by (now left). simpl. rewrite IH; [reflexivity|].
  intros y Hy. apply H. now right.
Qed.

Lemma reduce_spec dbg (t : tabler T) : closed_table (t_actions t) -> length (t_actions t) <= length (t_states t) ->
  (forall row, In row (t_actions t) -> msorted row) -> t_actions t <> [] ->
  exists f t', reduce_equals dbg t = Val t' /\ t_grammar t' = t_grammar t /\ f 0 = 0 /\
    length (t_actions t') <= length (t_actions t) /\
    (forall q row, nth_error (t_actions t) q = Some row -> nth_error (t_actions t') (f q) = Some (ren_row f row)) /\
    (forall q row, nth_error (t_actions t') q = Some row -> exists q', q' < length (t_actions t) /\ f q' = q) /\
    (forall q1 q2, q1 < length (t_actions t) -> q2 < length (t_actions t) ->
       (f q1 = f q2 <-> nth_error (t_actions t) q1 = nth_error (t_actions t) q2)).
Proof.
  intros Hc Hl Hs Hne. unfold reduce_equals, reduced_actions.
  destruct (reduced_fold (t_actions t) [] _ rinv_nil) as ([[am tv] ac] & E & [H1 H2 H3 H4 H5 H6 H7 H8]).
  cbn [length app fst snd] in *. rewrite E. cbn [bind].
  replace (length ac <=? length (t_states t)) with true by (symmetry; apply Nat.leb_le; lia).
  rewrite dassert_true. cbn [bind].
  set (f := fun n => match bm_get n tv with Some m => m | None => 0 end).
  assert (Hfv : forall n m, bm_get n tv = Some m -> f n = m) by (unfold f; intros n m ->; reflexivity).
  assert (Hf : forall n, n < length (t_actions t) -> exists m, bm_get n tv = Some m /\ f n = m).
  { intros n Hn. apply nth_error_Some in Hn. destruct (nth_error (t_actions t) n) as [row|] eqn:En; [|congruence].
    destruct (H3 _ _ En) as (m & Hm & _). exists m. split; auto. }
  rewrite (mapM_map _ (ren_row f)).
  2:{ intros row Hrow. apply (mapM_map _ (fun e => (fst e, ren f (snd e)))). intros [k a] Ha. cbn [fst snd].
      rewrite (update_ok tv f); auto. intros n Hn. apply Hf. apply H6 in Hrow. pose proof (Hs _ Hrow) as Hsr.
      apply in_nth_error in Hrow as (q & Hq). apply (Hc q row k a n Hq); [now apply bm_in_get|exact Hn]. }
  cbn [bind]. exists f. eexists. split; [reflexivity|]. cbn [t_grammar t_actions]. split; auto. split; [|split; [|split; [|split]]].
  - destruct (t_actions t) as [|r0 l] eqn:Et; [congruence|]. destruct (H3 0 r0 eq_refl) as (j & Hj & Hn). unfold f. rewrite Hj.
    destruct ac as [|a ac]; [discriminate|]. simpl in H8. injection H8 as ->.
    pose proof (proj1 (NoDup_nth_error (r0 :: ac)) H5 j 0) as Hz. apply Hz; [apply nth_error_Some; congruence|]. rewrite Hn. reflexivity.
  - rewrite map_length. lia.
  - intros q row Hq. destruct (H3 _ _ Hq) as (j & Hj & Hn). rewrite (Hfv _ _ Hj). now apply map_nth_error.
  - intros q row Hq. rewrite nth_error_map in Hq. destruct (nth_error ac q) as [row'|] eqn:Eq; [|discriminate].
    assert (In row' ac) as Hin by (eapply nth_error_In; eauto). apply H6, in_nth_error in Hin as (q' & Hq').
    exists q'. split; [apply nth_error_Some; congruence|]. destruct (H3 _ _ Hq') as (j & Hj & Hn). unfold f. rewrite Hj.
    apply (proj1 (NoDup_nth_error ac) H5); [apply nth_error_Some|]; congruence.
  - intros q1 q2 L1 L2. apply nth_error_Some in L1, L2.
    destruct (nth_error (t_actions t) q1) as [r1|] eqn:E1; [|congruence]. destruct (nth_error (t_actions t) q2) as [r2|] eqn:E2; [|congruence].
    destruct (H3 _ _ E1) as (j1 & Hj1 & Hn1). destruct (H3 _ _ E2) as (j2 & Hj2 & Hn2). unfold f. rewrite Hj1, Hj2. split.
    + intros ->. congruence.
    + intros [= ->]. apply (proj1 (NoDup_nth_error ac) H5); [apply nth_error_Some|]; congruence.
Qed.
End Reduce.

(** ** generated tables *)
Section Gen.
Context {T : Type} {OT : Ord T}.
Variables (dbg : bool) (start eof : T) (rules : rulemap T) (g : grammar T).
Hypothesis W : wf_rules rules.
Hypothesis Hg : grammar_new dbg start rules eof = Val g.
Variables (k : method) (t : tabler T).
Hypothesis Hm : makes k dbg g t.

Lemma makes_closed : closed_table (t_actions t) /\ length (t_actions t) = length (t_states t) /\
  (forall row, In row (t_actions t) -> msorted row) /\ t_actions t <> [].
Proof.
  destruct (Wp0 _ _ _ _ _ W Hg) as (p0 & Hp0 & Hp & _). destruct (makes_made _ _ _ _ _ W Hg _ _ _ Hm Hp0) as (sfk & lookf & X).
  pose proof (m_lr0 _ _ _ _ _ _ _ _ _ _ X) as L.
  pose proof (proc_actions_spec _ _ _ _ _ (l_acts _ _ _ _ _ _ _ _ L)) as [Hlen _].
  split; [|split; [|split]]; auto.
  - intros q m s a n Hq Ha Hn. rewrite Hlen. apply (row_spec' _ _ _ _ _ _ _ _ L) in Hq as (row & Er & Hok).
    destruct Hok as (Hs & Hd & _).
    assert (exists b, In b (leaves a) /\ mentions b n) as (b & Hb & Hbn).
    { clear - Hn. induction a as [x|x|x p| |a1 IH1 a2 IH2]; simpl in *; try contradiction; eauto.
      destruct Hn as [Hn|Hn]; [destruct (IH1 Hn) as (b & H1 & H2)|destruct (IH2 Hn) as (b & H1 & H2)]; exists b; split; auto; apply in_app_iff; auto. }
    destruct (proj1 (Hd s b)) as (pos & Hpos & Hdec); [eauto|].
    inversion Hdec; subst; simpl in Hbn; try contradiction; subst; eapply (l_len _ _ _ _ _ _ _ _ L) with (q := q) (X := s); exists row, pos; auto.
  - intros row Hr. apply in_nth_error in Hr as (q & Hq). apply (row_spec' _ _ _ _ _ _ _ _ L) in Hq as (r & _ & Hs & _). exact Hs.
  - intros E. rewrite E in Hlen. destruct (l_start _ _ _ _ _ _ _ _ L) as (row & l & E0 & _). destruct (t_states t); [discriminate|discriminate].
Qed.

Lemma reduce_equals_ok : exists f t', reduce_equals dbg t = Val t' /\ f 0 = 0 /\
  length (t_actions t') <= length (t_actions t) /\
  (forall q row, nth_error (t_actions t) q = Some row -> nth_error (t_actions t') (f q) = Some (ren_row f row)) /\
  (forall q row, nth_error (t_actions t') q = Some row -> exists q', q' < length (t_actions t) /\ f q' = q) /\
  (forall q1 q2, q1 < length (t_actions t) -> q2 < length (t_actions t) ->
     (f q1 = f q2 <-> nth_error (t_actions t) q1 = nth_error (t_actions t) q2)) /\
  forall M (maps : reductmap T M) input fuel,
    parser_parse fuel t' input maps = match parser_parse fuel t input maps with Val r => Val (ren_res f r) | x => x end.
Proof.
  destruct makes_closed as (Hc & Hl & Hs & Hne).
  destruct (reduce_spec dbg t Hc ltac:(lia) Hs Hne) as (f & t' & E & Eg & F0 & H1 & H2 & H3 & H4).
  exists f, t'. do 6 (split; auto). intros M maps input fuel. unfold parser_parse, parser_dfa. rewrite Eg.
  destruct (expect P_index _) as [e| |]; [|reflexivity..]. cbn [bind].
  assert (dfa_new input (t_actions t') maps e = rend (t_actions t') f (dfa_new input (t_actions t) maps e)) as ->.
  { unfold rend, dfa_new. cbn [d_items d_reductors d_states d_buffer d_table d_finished d_eof d_top map]. now rewrite F0. }
  rewrite (start_ren (t_actions t) (t_actions t') f Hc H2).
  - destruct (dfa_start fuel (dfa_new input (t_actions t) maps e)) as [[d' [|er]]| |]; cbn [rmap bind renp fst snd reno]; [|reflexivity..].
    cbn [rend d_items]. destruct (d_items d'); reflexivity.
  - assert (0 < length (t_actions t)) by (destruct (t_actions t); simpl; [congruence|lia]).
    split; [reflexivity|]. cbn [dfa_new d_top d_states]. auto.
Qed.
End Gen.
