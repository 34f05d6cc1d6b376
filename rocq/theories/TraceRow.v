(** C95, C96 at the level of the entry points; the table of [print_proc_dfa] (C97) *)
From Coq Require Import List Bool Arith Lia.
From Verif Require Import BTree Model Show Base Spec SpecP GrammarP FirstFollow Closure ActTab LR Sound Locality Prefix Halt RunFacts Interface Wrap Values LR1Spec Export ShowP Trace TraceSpec TraceP.
Import ListNotations.

Section Weave.
Context {A B : Type}.
Fixpoint pairs (m : list B) (l : list A) : list (A + B) :=
  match m, l with
  | x :: m', a :: l' => inr x :: inl a :: pairs m' l'
  | _, _ => []
  end.
Lemma weave_pairs m : forall l a, length l = length m -> weave (a :: l) m = inl a :: @pairs m l.
Proof.
  induction m as [|x m IH]; intros [|b l] a E; try discriminate; [reflexivity|]. simpl in E.
  change (weave (a :: b :: l) (x :: m)) with (inl a :: inr x :: weave (b :: l) m). rewrite IH by lia. reflexivity.
Qed.
Lemma pairs_len m : forall l, length l = length m -> length (pairs m l) = 2 * length m.
Proof. induction m as [|x m IH]; intros [|b l] E; try discriminate; [reflexivity|]. simpl in *. rewrite IH; lia. Qed.
Lemma weave_app (m : list B) : forall (l : list A) p m2 l2, length l = length m -> length l2 = length m2 ->
  exists st, weave (l ++ [p]) m = st ++ [inl p] /\ weave ((l ++ [p]) ++ l2) (m ++ m2) = st ++ inl p :: pairs m2 l2.
Proof.
  induction m as [|x m IH]; intros [|a l] p m2 l2 E E2; try discriminate.
  - exists []. split; [reflexivity|]. now apply weave_pairs.
  - simpl in E. destruct (IH l p m2 l2) as (st & H1 & H2); [lia|auto|]. exists (inl a :: inr x :: st).
    split; cbn [app weave]; [now rewrite H1|now rewrite H2].
Qed.
End Weave.

Lemma pairs_symbols {T} (m : list T) : forall l, length l = length m -> symbols_of (pairs m l) = m.
Proof. induction m as [|x m IH]; intros [|b l] E; try discriminate; [reflexivity|]. simpl in *. rewrite IH; auto. Qed.

Section Rows.
Context {T : Type} {OT : Ord T} {M : Type}.
Definition row_of (eof : T) (i : nat) (d : dfa T M) : proc_row T :=
  let symbol := match d_buffer d with [] => eof | t :: _ => tk_ty t end in
  mkRow i (stack_fmt d) (map tk_ty (d_buffer d) ++ [eof]) (d_top d, symbol)
    (match nth_error (d_table d) (d_top d) with Some row => bm_get symbol row | None => None end).
Fixpoint rows_of (eof : T) (i : nat) (cs : list (dfa T M)) : list (proc_row T) :=
  match cs with [] => [] | d :: cs' => row_of eof i d :: rows_of eof (S i) cs' end.
Lemma proc_rows_of eof cs : forall out, fold_left (proc_rows eof) cs out = out ++ rows_of eof (length out + 1) cs.
Proof.
  induction cs as [|d cs IH]; intros out; [now rewrite app_nil_r|]. cbn [fold_left rows_of]. rewrite IH. unfold proc_rows.
  rewrite <- app_assoc, app_length. cbn [app length]. f_equal. f_equal. f_equal. lia.
Qed.
Lemma rows_length eof cs : forall i, length (rows_of eof i cs) = length cs.
Proof. induction cs as [|d cs IH]; intros i; [reflexivity|]. cbn [rows_of length]. now rewrite IH. Qed.
Lemma rows_steps eof cs : forall i, map r_step (rows_of eof i cs) = seq i (length cs).
Proof. induction cs as [|d cs IH]; intros i; [reflexivity|]. cbn [rows_of map length seq]. now rewrite IH. Qed.
End Rows.

Section Lr0.
Context {T : Type} {OT : Ord T}.
Variables (g : grammar T) (start eof : T) (p0 : production T).
Variable t : tabler T.
Variable sfk : state T -> option nat.
Variable lookf : position T -> res (bset T).
Notation rules := (g_rules g).
Notation sts := (t_states t).
Notation acts := (t_actions t).
Notation lr0 := (lr0 g start eof p0 sts sfk lookf acts).
Hypothesis L : lr0.
Hypothesis Heof : term rules eof.
Context {M : Type}.
Variable maps : reductmap T M.
Notation sinv := (sinv eof sts sfk acts maps).
Notation stepR := (stepR eof sts sfk acts maps).
Notation terms := (terms g).
Notation row_of := (row_of eof).

Lemma look_symbol (d : dfa T M) : sinv d -> match d_buffer d with [] => eof | tk :: _ => tk_ty tk end = lookahead d.
Proof. intros Hs. unfold lookahead. now rewrite (si_eof _ _ _ _ _ _ Hs). Qed.

Lemma row_action i d : sinv d -> r_action (row_of i d) = entry acts (d_top d) (lookahead d).
Proof. intros Hs. unfold row_of. cbn [r_action]. rewrite (si_table _ _ _ _ _ _ Hs), (look_symbol d Hs). reflexivity. Qed.

Lemma row_buffer i d : sinv d -> exists w, r_buffer (row_of i d) = lookahead d :: w /\ (d_buffer d = [] -> w = []) /\ (d_buffer d <> [] -> w <> []).
Proof.
  intros Hs. unfold row_of. cbn [r_buffer]. rewrite <- (look_symbol d Hs). destruct (d_buffer d) as [|tk rest]; cbn [map app]; eexists; (split; [reflexivity|]).
  - split; congruence.
  - split; [discriminate|]. intros _. destruct (map tk_ty rest); discriminate.
Qed.

Lemma stack_split (d : dfa T M) k q : sinv d -> nth_error (d_states d) k = Some q -> k <= length (d_items d) ->
  exists st, stack_fmt d = st ++ inl q :: pairs (rev (map tk_ty (firstn k (d_items d)))) (rev (firstn k (d_states d))) /\
   (forall it m, weave (rev (m :: skipn k (d_states d))) (rev (map tk_ty (it :: skipn k (d_items d)))) = st ++ [inl q; inr (tk_ty it); inl m]).
Proof.
  intros Hs Hq Hk. pose proof (si_path _ _ _ _ _ _ Hs) as Sp. apply path_len in Sp. rewrite map_length in Sp.
  assert (skipn k (d_states d) = q :: skipn (S k) (d_states d)) as Esk.
  { clear -Hq. revert Hq. generalize (d_states d). induction k as [|k IH]; intros [|a l] H; try discriminate; simpl in *; [congruence|]. now apply IH. }
  assert (length (rev (skipn (S k) (d_states d))) = length (rev (map tk_ty (skipn k (d_items d))))) as El.
  { rewrite !rev_length, map_length, !skipn_length. lia. }
  destruct (weave_app (rev (map tk_ty (skipn k (d_items d)))) (rev (skipn (S k) (d_states d))) q
    (rev (map tk_ty (firstn k (d_items d)))) (rev (firstn k (d_states d))) El) as (st & H1 & H2).
  { rewrite !rev_length, map_length, !firstn_length. lia. }
  exists st. split.
  - unfold stack_fmt. rewrite <- H2. f_equal.
    + change (rev (skipn (S k) (d_states d)) ++ [q]) with (rev (q :: skipn (S k) (d_states d))). rewrite <- Esk, <- rev_app_distr. now rewrite firstn_skipn.
    + rewrite <- rev_app_distr, <- map_app. now rewrite firstn_skipn.
  - intros it m. rewrite Esk. cbn [rev map]. rewrite weave_snoc. 2:{ rewrite app_length, El. simpl. lia. } rewrite H1, <- app_assoc. reflexivity.
Qed.

Lemma entry_says q x a : entry acts q x = Some a -> table_says t q x (Some a).
Proof. unfold entry, table_says. destruct (nth_error acts q) as [row|]; [|discriminate]. eauto. Qed.

Lemma row_addressed i d : sinv d -> addressed t (row_of i d).
Proof.
  intros Hs. pose proof (si_top _ _ _ _ _ _ Hs) as Stop. destruct (d_states d) as [|q qs] eqn:Eq; [discriminate|]. injection Stop as ->.
  destruct (stack_split d 0 (d_top d) Hs) as (st & H1 & _); [now rewrite Eq|lia|]. destruct (row_buffer i d Hs) as (w & Hw & _).
  exists st, (d_top d), (lookahead d), w. split; [exact H1|]. split; [exact Hw|]. split.
  - unfold row_of. cbn [r_address]. now rewrite (look_symbol d Hs).
  - rewrite (row_action i d Hs). unfold table_says, entry.
    destruct (path_top _ _ _ _ _ _ _ _ L _ _ (si_path _ _ _ _ _ _ Hs)) as (q0 & qs0 & E & Hlt). rewrite Eq in E. injection E as <- <-.
    apply nth_error_Some in Hlt. destruct (nth_error sts (d_top d)) as [row|] eqn:Er; [|congruence].
    destruct (row_spec _ _ _ _ _ _ _ _ L _ _ Er) as (m & Em & _). rewrite Em. eauto.
Qed.

Lemma step_row i d d' : sinv d -> terms d -> d_finished d = false -> stepR d d' Ok -> d_finished d' = false -> sinv d' -> next_row rules t (row_of i d) (row_of (S i) d').
Proof.
  intros Hs Ht Hnf SR Hf' Hs'.
  inversion SR as [tok rest m Eb E|m Eb E|m E|E Eb|E Eb|a b E|m Em E|B pr q m fs f E Efs Ef' Eq Et Eg|B pr q a b fs f E Efs Ef' Eq Eg]; subst.
  - apply (next_shift _ _ _ _ m (tk_ty tok) (map tk_ty rest ++ [eof])).
    + rewrite (row_action i d Hs). unfold lookahead. now rewrite Eb.
    + unfold row_of. cbn [r_buffer]. now rewrite Eb.
    + destruct (map tk_ty rest); discriminate.
    + unfold row_of. cbn [r_stack]. unfold stack_fmt. cbn [pushed d_states d_items skipn map rev]. rewrite weave_snoc; [reflexivity|].
      pose proof (si_path _ _ _ _ _ _ Hs) as Sp. apply path_len in Sp. now rewrite !rev_length.
    + reflexivity.
  - apply (entry_goto _ _ _ _ _ _ _ _ L) in E as [E _]. exfalso. pose proof (terms_look g eof sts sfk acts maps Heof d Hs Ht). contradiction.
  - discriminate.
  - destruct (reduce_stack g start eof p0 sts sfk lookf acts L maps d B pr Hs E) as (Hpr & Hne & Hlen & Hst).
    destruct (stack_split d (length (fst pr)) q Hs Eq Hlen) as (st & H1 & H2). destruct pr as [rhs k]. cbn [fst snd] in *.
    pose proof (si_path _ _ _ _ _ _ Hs) as Sp. apply path_len in Sp. rewrite map_length in Sp.
    assert (length (rev (firstn (length rhs) (d_states d))) = length rhs) as El by (rewrite rev_length, firstn_length; lia).
    rewrite Hst in H1.
    apply (next_reduce _ _ _ _ B rhs k st q (pairs rhs (rev (firstn (length rhs) (d_states d)))) m); auto.
    + rewrite (row_action i d Hs). exact E.
    + now apply pairs_symbols.
    + now apply pairs_len.
    + now apply entry_says.
    + unfold row_of. cbn [r_stack]. unfold stack_fmt. cbn [pushed d_states d_items]. now rewrite H2.
Qed.

Lemma step_outcome i d d' o : sinv d -> terms d -> d_finished d = false -> stepR d d' o -> d_finished d' = true \/ o <> Ok -> outcome_of t eof (row_of i d) o.
Proof.
  intros Hs Ht Hnf SR Hf'.
  destruct SR as [tok rest m Eb E|m Eb E|m E|E Eb|E Eb|a b E|m Em E|B pr q m fs f E Efs Ef' Eq Et Eg|B pr q a b fs f E Efs Ef' Eq Eg].
  - destruct Hf' as [H|H]; [cbn [pushed d_finished] in H|]; congruence.
  - eapply (of_eof _ _ _ m); [rewrite (row_action i d Hs); unfold lookahead; now rewrite Eb, (si_eof _ _ _ _ _ _ Hs)|].
    unfold row_of. cbn [r_buffer]. now rewrite Eb.
  - apply (entry_goto _ _ _ _ _ _ _ _ L) in E as [E _]. exfalso. pose proof (terms_look g eof sts sfk acts maps Heof d Hs Ht). contradiction.
  - apply of_acc; [now rewrite (row_action i d Hs)|]. unfold row_of. cbn [r_buffer]. now rewrite Eb.
  - destruct (row_buffer i d Hs) as (w & Hw & _ & Hne). specialize (Hne Eb). destruct w as [|y w]; [congruence|]. eapply of_acc_early; [rewrite (row_action i d Hs); exact E|exact Hw].
  - apply of_conflict. now rewrite (row_action i d Hs).
  - apply (of_none _ _ _ (d_top d) (lookahead d) m); auto.
    + rewrite (row_action i d Hs). unfold entry. now rewrite Em.
    + unfold row_of. cbn [r_address]. now rewrite (look_symbol d Hs).
  - destruct Hf' as [H|H]; [cbn [pushed d_finished] in H|]; congruence.
  - destruct (reduce_stack g start eof p0 sts sfk lookf acts L maps d B pr Hs E) as (Hpr & Hne & Hlen & Hst).
    destruct (stack_split d (length (fst pr)) q Hs Eq Hlen) as (st & H1 & _). destruct pr as [rhs k]. cbn [fst snd] in *.
    pose proof (si_path _ _ _ _ _ _ Hs) as Sp. apply path_len in Sp. rewrite map_length in Sp.
    assert (length (rev (firstn (length rhs) (d_states d))) = length rhs) as El by (rewrite rev_length, firstn_length; lia).
    rewrite Hst in H1. eapply of_reduce; [rewrite (row_action i d Hs); exact E|exact H1|now apply pairs_len|now apply entry_says].
Qed.

Lemma obs_rows d cs d' o : obs d cs d' o -> sinv d -> terms d -> d_finished d = false -> forall i,
  exists cs', cs = d :: cs' /\ Forall (addressed t) (rows_of eof i cs) /\ linked (next_row rules t) (row_of i d) (rows_of eof (S i) cs') /\
    outcome_of t eof (last (rows_of eof (S i) cs') (row_of i d)) o.
Proof.
  induction 1 as [d Hf|d d1 e Hf S|d d1 cs d' o Hf S H IH]; intros Hs Ht Hf' i; [congruence| |].
  - destruct (step_inv' _ _ _ _ _ _ _ _ L maps Heof _ _ _ Hs Ht S) as [SR _]. exists []. split; auto. split; [repeat constructor; now apply row_addressed|].
    split; [exact I|]. eapply step_outcome; eauto. right. discriminate.
  - destruct (step_inv' _ _ _ _ _ _ _ _ L maps Heof _ _ _ Hs Ht S) as [SR H1]. destruct (H1 eq_refl) as [Hs' Ht']. clear H1.
    exists cs. split; auto. cbn [rows_of]. destruct (d_finished d1) eqn:F.
    + inversion H; subst; try congruence. cbn [rows_of]. split; [repeat constructor; now apply row_addressed|]. split; [exact I|].
      eapply step_outcome; eauto.
    + destruct (IH Hs' Ht' eq_refl (Datatypes.S i)) as (cs' & -> & Ha & Hl & Ho). split; [constructor; auto; now apply row_addressed|].
      cbn [rows_of]. split; [split; auto; now apply step_row|]. now rewrite last_next.
Qed.

(** two levels of [travel] are enough for a round *)
Lemma step_fuel d d' o n : sinv d -> stepR d d' o -> travel (S (S n)) d (lookahead d) = Val (d', o).
Proof.
  intros Hs SR.
  assert (forall (e : dfa T M) x a, d_table e = acts -> entry acts (d_top e) x = Some a -> forall n, travel (S n) e x =
    match a with
    | Shift to => Val (dfa_shift e to)
    | Goto to => Val (dfa_goto e to)
    | Reduce name prod => do d' <- dfa_pop e name prod; travel n d' name
    | Acc => Val (dfa_accept e)
    | Conflict a b => Val (e, Err (ConflictErr a b))
    end) as Etr.
  { intros e x a Et E m. cbn [travel]. rewrite Et. unfold entry in E. destruct (nth_error acts (d_top e)) as [row|]; [|discriminate]. rewrite E. now destruct a. }
  pose proof (si_table _ _ _ _ _ _ Hs) as Et.
  assert (forall B pr q fs f, entry acts (d_top d) (lookahead d) = Some (Reduce B pr) -> bm_get B maps = Some fs -> nth_error fs (snd pr) = Some f ->
    nth_error (d_states d) (length (fst pr)) = Some q ->
    dfa_pop d B pr = Val (popped d q (mkTok (f (rev (firstn (length (fst pr)) (d_items d)))) B) (length (fst pr)))) as Hpop.
  { intros B pr q fs f E Efs Ef Eq. destruct (reduce_stack g start eof p0 sts sfk lookf acts L maps d B pr Hs E) as (_ & _ & Hlen & _).
    unfold dfa_pop. apply Nat.ltb_ge in Hlen. rewrite <- (si_maps _ _ _ _ _ _ Hs) in Efs. rewrite Hlen, Efs. cbn [expect bind]. rewrite Ef. cbn [expect bind]. rewrite Eq. reflexivity. }
  destruct SR as [tok rest m Eb E|m Eb E|m E|E Eb|E Eb|a b E|m Em E|B pr q m fs f E Efs Ef' Eq Etr' Eg|B pr q a b fs f E Efs Ef' Eq Eg].
  - unfold lookahead. rewrite Eb. rewrite (Etr d _ _ Et E). unfold dfa_shift. now rewrite Eb.
  - unfold lookahead. rewrite Eb, (si_eof _ _ _ _ _ _ Hs). rewrite (Etr d _ _ Et E). unfold dfa_shift. now rewrite Eb.
  - now rewrite (Etr d _ _ Et E).
  - rewrite (Etr d _ _ Et E). unfold dfa_accept, accepted. rewrite Eb. reflexivity.
  - rewrite (Etr d _ _ Et E). unfold dfa_accept. unfold accepted. destruct (d_buffer d) eqn:Ed; [congruence|reflexivity].
  - now rewrite (Etr d _ _ Et E).
  - cbn [travel]. now rewrite Et, Em, E.
  - rewrite (Etr d _ _ Et E), (Hpop _ _ _ _ _ E Efs Ef' Eq). cbn [bind]. erewrite Etr; [|exact Et|exact Eg]. reflexivity.
  - rewrite (Etr d _ _ Et E), (Hpop _ _ _ _ _ E Efs Ef' Eq). cbn [bind]. erewrite Etr; [|exact Et|exact Eg]. reflexivity.
Qed.

Lemma obs_fuel A (f : A -> dfa T M -> A) d cs d' o : obs d cs d' o -> sinv d -> terms d -> forall a fuel, length cs + 3 <= fuel ->
  dfa_trace_with (looking f) fuel a d = Val (fold_left f cs a, d', o).
Proof.
  induction 1 as [d Hf|d d1 e Hf S|d d1 cs d' o Hf S H IH]; intros Hs Ht a fuel Hfu; (destruct fuel as [|fuel]; [simpl in Hfu; lia|]); cbn [dfa_trace_with length] in *; rewrite Hf.
  - reflexivity.
  - destruct (step_inv' _ _ _ _ _ _ _ _ L maps Heof _ _ _ Hs Ht S) as [SR _]. destruct fuel as [|[|fuel]]; try lia. unfold looking at 1.
    rewrite (step_fuel _ _ _ fuel Hs SR). reflexivity.
  - destruct (step_inv' _ _ _ _ _ _ _ _ L maps Heof _ _ _ Hs Ht S) as [SR H1]. destruct (H1 eq_refl) as [Hs' Ht'].
    unfold looking at 1. assert (travel fuel d (lookahead d) = Val (d1, Ok)) as ->. { destruct fuel as [|[|fuel]]; try lia. now apply step_fuel. }
    cbn [bind]. rewrite IH; auto. lia.
Qed.
End Lr0.

Section Entry.
Context {T : Type} {OT : Ord T}.
Variables (dbg : bool) (start eof : T) (rules : rulemap T) (g : grammar T).
Hypothesis W : wf_rules rules.
Hypothesis Hg : grammar_new dbg start rules eof = Val g.
Context {M : Type}.
Variable maps : reductmap T M.
Variables (k : method) (t : tabler T).
Hypothesis Hm : makes k dbg g t.
Hypothesis Heof : term rules eof.

Lemma dfa_new_inv input d : parser_dfa t input maps = Val d -> d = dfa_new input (t_actions t) maps eof.
Proof. rewrite (makes_dfa _ _ _ _ _ W Hg maps _ _ Hm). congruence. Qed.

Lemma dfa_new_sinv sfk (input : list (token T M)) : sinv eof (t_states t) sfk (t_actions t) maps (dfa_new input (t_actions t) maps eof).
Proof. constructor; try reflexivity. constructor. Qed.

(** *** C95 *)
Lemma trace_derivation A (f : A -> dfa T M -> A) fuel a input d a' d' o : Forall (term rules) (map tk_ty input) -> parser_dfa t input maps = Val d ->
  dfa_trace_with (looking f) fuel a d = Val (a', d', o) ->
  exists cs, a' = fold_left f (d :: cs) a /\ Forall (reaches t input maps) (d :: cs) /\ shown d = ([], map tk_ty input) /\
    linked (shift_reduce rules) (shown d) (map shown cs) /\
    (o = Ok -> start_fresh rules start -> exists rhs, prod_at rules start 0 rhs /\ shown (last cs d) = (rhs, []) /\
       Forall (fun c => rms rules [start] (fst (shown c) ++ snd (shown c))) (d :: cs)).
Proof.
  intros Ht Ed E. pose proof Ed as Ed'. apply dfa_new_inv in Ed. destruct (trace_obs f _ _ _ _ _ _ E) as (cs & -> & Ho).
  destruct (Wp0 _ _ _ _ _ W Hg) as (p0 & Hp0 & Hpr & Hz). destruct (makes_made _ _ _ _ _ W Hg _ _ _ Hm Hp0) as (sfk & lookf & X).
  pose proof (m_lr0 _ _ _ _ _ _ _ _ _ _ X) as L. pose proof (Wr _ _ _ _ _ Hg) as Er.
  pose proof (obs_linked g start eof p0 (t_states t) sfk lookf (t_actions t) L) as H. rewrite Er in H. specialize (H Heof _ maps _ _ _ _ Ho).
  specialize (H ltac:(subst d; apply dfa_new_sinv) ltac:(unfold terms; rewrite Er, Ed; exact Ht) ltac:(now subst d)).
  destruct H as (cs' & -> & Hl & Hst & Hok). exists cs'.
  split; auto. split.
    { eapply Forall_impl; [|exact Hst]. intros c Hc. eapply steps_reaches; eauto. now constructor. }
    split; [now subst d|]. split; auto. intros -> Hfr. exists (fst p0). split; [exact Hpr|]. specialize (Hok eq_refl Hfr). split; auto.
    assert (last (map shown cs') (shown d) = shown (last cs' d)) as El.
    { clear. revert d. induction cs' as [|c cs' IH]; intros d; [reflexivity|]. cbn [map]. rewrite !last_next. apply IH. }
    apply (Forall_map shown (fun c => rms rules [start] (fst c ++ snd c))). cbn [map]. apply linked_rms; auto.
    + subst d. exact Ht.
    + rewrite El, Hok. cbn [fst snd]. rewrite app_nil_r. eapply rms_snoc; [constructor|].
      change [start] with ([] ++ [start] ++ []). replace (fst p0) with ([] ++ fst p0 ++ []) by (simpl; apply app_nil_r). econstructor; eauto.
Qed.

(** *** C96 *)
Lemma fold_count {X} (cs : list X) : forall a, fold_left (fun n _ => S n) cs a = a + length cs.
Proof. induction cs as [|c cs IH]; intros a; [simpl; lia|]. cbn [fold_left length]. rewrite IH. lia. Qed.

Lemma linear_obs input d : Forall (term rules) (map tk_ty input) -> parser_dfa t input maps = Val d -> (exists r, parses t input maps r) ->
  exists cs d' o, length cs <= (2 * length rules + 1) * length input + 1 /\
    forall A (f : A -> dfa T M -> A) a fuel, length cs + 3 <= fuel -> dfa_trace_with (looking f) fuel a d = Val (fold_left f cs a, d', o).
Proof.
  intros Ht Ed (r & Hr). apply dfa_new_inv in Ed. apply (parses_runs _ _ _ _ _ W Hg maps _ _ Hm) in Hr as (d' & o & (fuel & E) & _). rewrite <- Ed in E.
  rewrite (trace_is_start (fun n _ => S n) fuel 0 d) in E. apply bind_val in E as ([[n e] o1] & E & [= -> ->]).
  destruct (trace_obs _ _ _ _ _ _ _ E) as (cs & _ & Ho). exists cs, d', o.
  destruct (Wp0 _ _ _ _ _ W Hg) as (p0 & Hp0 & Hpr & Hz). destruct (makes_made _ _ _ _ _ W Hg _ _ _ Hm Hp0) as (sfk & lookf & X).
  pose proof (m_lr0 _ _ _ _ _ _ _ _ _ _ X) as L. pose proof (Wr _ _ _ _ _ Hg) as Er.
  assert (sinv eof (t_states t) sfk (t_actions t) maps d) as Hs by (subst d; apply dfa_new_sinv).
  assert (terms g d) as Hd by (unfold terms; rewrite Er, Ed; exact Ht).
  pose proof (obs_bound g start eof p0 (t_states t) sfk lookf (t_actions t) L) as H. rewrite Er in H.
  specialize (H Heof _ maps _ _ _ _ Ho Hs Hd [] (been_nil _ _ _ _ _ _ _)).
  unfold potential in H. rewrite Ed in H. cbn [dfa_new d_buffer d_items length] in H. rewrite Er in H. split; [lia|].
  intros A f a fu Hfu. pose proof (obs_fuel g start eof p0 t sfk lookf L) as K. rewrite Er in K. exact (K Heof _ maps _ f _ _ _ _ Ho Hs Hd a fu Hfu).
Qed.

Lemma linear_rounds input d : Forall (term rules) (map tk_ty input) -> parser_dfa t input maps = Val d -> (exists r, parses t input maps r) ->
  exists n d' o, n <= (2 * length rules + 1) * length input + 1 /\
    forall fuel, n + 3 <= fuel -> dfa_start fuel d = Val (d', o) /\ dfa_trace_with (looking (fun n _ => S n)) fuel 0 d = Val (n, d', o).
Proof.
  intros Ht Ed Hr. destruct (linear_obs _ _ Ht Ed Hr) as (cs & d' & o & Hn & H). exists (length cs), d', o. split; auto. intros fuel Hf.
  specialize (H _ (fun n _ => S n) 0 fuel Hf). rewrite fold_count in H. split; auto. rewrite (trace_is_start (fun n _ => S n) fuel 0 d), H. reflexivity.
Qed.

Lemma linear_total input d : covers rules maps -> k = CLR \/ no_unit_cycle rules -> Forall (term rules) (map tk_ty input) -> parser_dfa t input maps = Val d ->
  exists n d' o, n <= (2 * length rules + 1) * length input + 1 /\
    forall fuel, n + 3 <= fuel -> dfa_start fuel d = Val (d', o) /\ dfa_trace_with (looking (fun n _ => S n)) fuel 0 d = Val (n, d', o).
Proof.
  intros Hc Hk Ht Ed. apply linear_rounds; auto. destruct Hk as [->|Hu].
  - exact (proj1 (Export.clr_total _ _ _ _ _ W Hg _ Hm Heof) _ _ _ Hc Ht).
  - exact (proj1 (Export.acyclic_total _ _ _ _ _ W Hg _ _ Hm Heof Hu) _ _ _ Hc Ht).
Qed.

(** *** C97 *)
Lemma proc_table fuel input d rows d' o : Forall (term rules) (map tk_ty input) -> parser_dfa t input maps = Val d ->
  print_proc_dfa fuel d = Val (rows, d', o) ->
  dfa_start fuel d = Val (d', o) /\ map r_step rows = seq 1 (length rows) /\ Forall (addressed t) rows /\
  exists r rest, rows = r :: rest /\ r_stack r = [inl 0] /\ r_buffer r = map tk_ty input ++ [eof] /\ linked (next_row rules t) r rest /\ outcome_of t eof (last rest r) o.
Proof.
  intros Ht Ed E. pose proof (dfa_new_inv _ _ Ed) as En. unfold print_proc_dfa in E.
  split. { rewrite (trace_is_start (proc_rows (d_eof d)) fuel [] d), E. reflexivity. }
  destruct (trace_obs _ _ _ _ _ _ _ E) as (cs & -> & Ho). rewrite proc_rows_of. cbn [app length Nat.add].
  destruct (Wp0 _ _ _ _ _ W Hg) as (p0 & Hp0 & Hpr & Hz). destruct (makes_made _ _ _ _ _ W Hg _ _ _ Hm Hp0) as (sfk & lookf & X).
  pose proof (m_lr0 _ _ _ _ _ _ _ _ _ _ X) as L. pose proof (Wr _ _ _ _ _ Hg) as Er. assert (d_eof d = eof) as -> by now subst d.
  pose proof (obs_rows g start eof p0 t sfk lookf L) as H. rewrite Er in H. specialize (H Heof _ maps _ _ _ _ Ho).
  specialize (H ltac:(subst d; apply dfa_new_sinv) ltac:(unfold terms; rewrite Er, En; exact Ht) ltac:(now subst d) 1).
  destruct H as (cs' & -> & Ha & Hl & Hout).
  split. { rewrite rows_steps. f_equal. clear. cbn [rows_of length]. f_equal. generalize 2. induction cs' as [|c cs' IH]; intros n; [reflexivity|]. cbn [rows_of length]. f_equal. apply IH. }
  split; auto. exists (row_of eof 1 d), (rows_of eof 2 cs'). split; [reflexivity|]. split; [now rewrite En|]. split; [now rewrite En|]. auto.
Qed.
End Entry.
