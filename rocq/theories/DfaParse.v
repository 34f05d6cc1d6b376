(** [Dfa::parse] (C30): after [reset] the state stack lacks its bottom element. *)
From Coq Require Import List Bool Arith Lia.
From Verif Require Import BTree Model Base Spec SpecP GrammarP FirstFollow Closure Canon ActTab LR Sound CanonLR Merged Lalr LalrLR
  Agree Complete Locality Prefix Halt RunFacts Interface Wrap Mono.
Import ListNotations.

Section Chop.
Context {T : Type} {OT : Ord T}.
Variables (g : grammar T) (start eof : T) (p0 : production T).
Variable sts : list (state T).
Variable sfk : state T -> option nat.
Variable lookf : position T -> res (bset T).
Variable acts : acttable T.
Notation rules := (g_rules g).
Hypothesis L : lr0 g start eof p0 sts sfk lookf acts.
Hypothesis Heof : term rules eof.
Context {M : Type}.
Variable maps : reductmap T M.
Hypothesis Hcov : covers rules maps.
Notation sinv := (sinv eof sts sfk acts maps).
Notation stepR := (stepR eof sts sfk acts maps).
Notation terms := (terms g).

(** without the bottom state *)
Definition chop (d : dfa T M) : dfa T M :=
  mkDfa (d_buffer d) (removelast (d_states d)) (d_items d) (d_table d) (d_top d) (d_finished d) (d_reductors d) (d_eof d).

Definition emptied (d : dfa T M) : Prop :=
  exists A pr, entry acts (d_top d) (lookahead d) = Some (Reduce A pr) /\ length (fst pr) = length (d_items d).

Lemma sinv_len d : sinv d -> length (d_states d) = S (length (d_items d)).
Proof. intros H. pose proof (path_len _ _ _ _ (si_path _ _ _ _ _ _ H)) as E. now rewrite map_length in E. Qed.

Lemma rl_cons {A} (x : A) l : l <> [] -> removelast (x :: l) = x :: removelast l.
Proof. destruct l; [congruence|reflexivity]. Qed.

Lemma rl_nth {A} (l : list A) k : S k < length l -> nth_error (removelast l) k = nth_error l k.
Proof.
  revert k. induction l as [|x l IH]; intros k Hk; simpl in Hk; [lia|]. rewrite rl_cons by (destruct l; simpl in *; [lia|discriminate]).
  destruct k; auto. simpl. apply IH. lia.
Qed.

Lemma rl_len {A} (l : list A) : length (removelast l) = pred (length l).
Proof. induction l as [|x [|y l] IH]; auto. simpl in *. lia. Qed.

Lemma rl_skipn {A} (l : list A) k : k < length l -> skipn k (removelast l) = removelast (skipn k l).
Proof.
  revert k. induction l as [|x l IH]; intros k Hk; simpl in Hk; [lia|]. destruct l as [|y l].
  - assert (k = 0) by (simpl in Hk; lia). now subst.
  - rewrite rl_cons by discriminate. destruct k; [now rewrite <- rl_cons by discriminate|]. simpl in Hk. simpl. apply IH. simpl. lia.
Qed.

Lemma emptied_dec d : emptied d \/ ~ emptied d.
Proof.
  unfold emptied. destruct (entry acts (d_top d) (lookahead d)) as [[| |A pr| |]|]; try (right; intros (? & ? & E & _); discriminate E).
  destruct (Nat.eq_dec (length (fst pr)) (length (d_items d))) as [E|N]; [left; eauto|right]. intros (? & ? & [= <- <-] & E). auto.
Qed.

Lemma chop_step d d' o : sinv d -> stepR d d' o -> ~ emptied d -> stepsto (chop d) (chop d', o).
Proof.
  intros S H N. pose proof (sinv_len _ S) as Hl. assert (Nst : d_states d <> []) by (intros E; rewrite E in Hl; discriminate).
  destruct S as [St Sp Stop Sm Se]. unfold stepsto. change (lookahead (chop d)) with (lookahead d).
  destruct H as [tok rest n Eb E|n Eb E|n E|E Eb|E Eb|a b E|m Em E|A pr q n fs f E Efs Ef Eq Et Eg|A pr q a b fs f E Efs Ef Eq Eg];
    try (pose proof (entry_row _ _ _ _ E) as (m & Em & Ee)); rewrite <- St in Em.
  - exists 1. simpl. unfold lookahead. rewrite Eb, Em, Ee. unfold dfa_shift. cbn [chop d_buffer]. rewrite Eb. unfold chop, pushed. cbn [skipn d_buffer d_states d_items d_table d_top d_finished d_reductors d_eof].
    now rewrite (rl_cons n) by auto.
  - exists 1. simpl. unfold lookahead. rewrite Eb, Em, Se, Ee. unfold dfa_shift. cbn [chop d_buffer]. now rewrite Eb.
  - exists 1. simpl. rewrite Em, Ee. unfold dfa_goto, chop. cbn [fst d_buffer d_states d_items d_table d_top d_finished d_reductors d_eof].
    now rewrite (rl_cons n) by auto.
  - exists 1. simpl. rewrite Em, Ee. unfold dfa_accept. cbn [chop d_buffer]. rewrite Eb. unfold accepted, chop. simpl. now rewrite Eb.
  - exists 1. simpl. rewrite Em, Ee. unfold dfa_accept. cbn [chop d_buffer]. destruct (d_buffer d) eqn:Eb'; [congruence|]. unfold accepted, chop. simpl. now rewrite Eb'.
  - exists 1. simpl. now rewrite Em, Ee.
  - exists 1. simpl. now rewrite Em, E.
  - pose proof (entry_row _ _ _ _ Eg) as (m' & Em' & Ee'); rewrite <- St in Em'.
    assert (nth_error (d_states d) (length (fst pr)) <> None) as Ns by congruence. apply nth_error_Some in Ns.
    assert (length (fst pr) <> length (d_items d)) as Ne by (intros E1; apply N; exists A, pr; auto).
    exists 2. simpl. rewrite Em, Ee. unfold dfa_pop. cbn [chop d_items d_states d_reductors].
    assert (length (d_items d) <? length (fst pr) = false) as -> by (apply Nat.ltb_ge; lia).
    rewrite <- Sm in Efs. rewrite Efs. simpl. rewrite Ef. simpl. rewrite rl_nth by lia. rewrite Eq. simpl. rewrite Em', Ee'.
    unfold dfa_goto, chop, pushed. simpl. rewrite rl_skipn by lia.
    rewrite (skipn_nth_cons _ _ _ Eq). reflexivity.
  - pose proof (entry_row _ _ _ _ Eg) as (m' & Em' & Ee'); rewrite <- St in Em'.
    assert (nth_error (d_states d) (length (fst pr)) <> None) as Ns by congruence. apply nth_error_Some in Ns.
    assert (length (fst pr) <> length (d_items d)) as Ne by (intros E1; apply N; exists A, pr; auto).
    exists 2. simpl. rewrite Em, Ee. unfold dfa_pop. cbn [chop d_items d_states d_reductors].
    assert (length (d_items d) <? length (fst pr) = false) as -> by (apply Nat.ltb_ge; lia).
    rewrite <- Sm in Efs. rewrite Efs. simpl. rewrite Ef. simpl. rewrite rl_nth by lia. rewrite Eq. simpl. rewrite Em', Ee'.
    unfold popped, chop. simpl. rewrite rl_skipn by lia. reflexivity.
Qed.

Lemma chop_panic d fuel : sinv d -> emptied d -> travel (S fuel) (chop d) (lookahead (chop d)) = Panic P_underflow.
Proof.
  intros S (A & pr & E & Hlen). pose proof (sinv_len _ S) as Hl. pose proof (entry_row _ _ _ _ E) as (m & Em & Ee).
  destruct (step_total _ _ _ _ _ _ _ _ L maps d Hcov S) as (d' & o & _ & SR). destruct S as [St Sp Stop Sm Se]. rewrite <- St in Em.
  change (lookahead (chop d)) with (lookahead d). cbn [travel chop d_table d_top]. rewrite Em, Ee.
  assert (exists fs f, bm_get A maps = Some fs /\ nth_error fs (snd pr) = Some f) as (fs & f & Efs & Ef).
  { apply (entry_reduce _ _ _ _ _ _ _ _ L) in E as [_ Hh]. apply hasl_has in Hh. apply (l_valid _ _ _ _ _ _ _ _ L) in Hh as [Hp _]. eauto. }
  unfold dfa_pop. cbn [d_items d_reductors d_states chop]. rewrite Hlen, Nat.ltb_irrefl, Sm, Efs. cbn [expect bind]. rewrite Ef. cbn [expect bind].
  assert (nth_error (removelast (d_states d)) (length (d_items d)) = None) as ->; [|reflexivity].
  apply nth_error_None. rewrite rl_len. lia.
Qed.

Lemma chop_runs d r : runs d r -> sinv d -> terms d -> (forall d1, steps d d1 -> d_finished d1 = false -> ~ emptied d1) ->
  runs (chop d) (chop (fst r), snd r).
Proof.
  intros R. revert d r R. apply (runs_ind (fun d r => sinv d -> terms d -> (forall d1, steps d d1 -> d_finished d1 = false -> ~ emptied d1) -> runs (chop d) (chop (fst r), snd r))).
  - intros d Ef _ _ _. now apply runs_fin.
  - intros d d' e Ef S Hs Ht N. destruct (step_inv' _ _ _ _ _ _ _ _ L maps Heof _ _ _ Hs Ht S) as [SR _].
    apply runs_err; auto. apply chop_step; auto. apply N; auto. constructor.
  - intros d d' r Ef S R IH Hs Ht N. destruct (step_inv' _ _ _ _ _ _ _ _ L maps Heof _ _ _ Hs Ht S) as [SR H2]. destruct (H2 eq_refl).
    eapply runs_step with (d' := chop d'); auto.
    + apply chop_step; auto. apply N; auto. constructor.
    + apply IH; auto. intros d1 S1 Ef1. apply N; auto. eapply steps_cons; eauto.
Qed.

Lemma chop_boom d d1 : steps d d1 -> sinv d -> terms d -> d_finished d1 = false -> emptied d1 ->
  exists N, forall fuel, N <= fuel -> dfa_start fuel (chop d) = Panic P_underflow.
Proof.
  induction 1 as [d|d d' d2 Ef Sd St IH]; intros Hs Ht Ef2 He.
  - exists 2. intros [|[|fuel]] Hf; try lia. cbn [dfa_start]. change (d_finished (chop d)) with (d_finished d). rewrite Ef2.
    rewrite chop_panic; auto.
  - destruct (step_inv' _ _ _ _ _ _ _ _ L maps Heof _ _ _ Hs Ht Sd) as [SR H2]. destruct (H2 eq_refl).
    destruct (emptied_dec d) as [E|N].
    + exists 2. intros [|[|fuel]] Hf; try lia. cbn [dfa_start]. change (d_finished (chop d)) with (d_finished d). rewrite Ef.
      rewrite chop_panic; auto.
    + destruct IH as (N0 & HN); auto. destruct (chop_step _ _ _ Hs SR N) as (f & Ef1). exists (S (max f N0)). intros [|fuel] Hf; [lia|].
      cbn [dfa_start]. change (d_finished (chop d)) with (d_finished d). rewrite Ef.
      rewrite (travel_mono _ _ _ _ Ef1 fuel) by lia. cbn [bind]. apply HN. lia.
Qed.

(** an accepting run that never empties the stack keeps a token at its bottom *)
Definition bottom (d : dfa T M) : Prop := forall pre it, d_items d = pre ++ [it] -> term rules (tk_ty it).

Lemma snoc_inv {A} (x : A) l pre y : x :: l = pre ++ [y] -> (l = [] /\ x = y) \/ exists pre', pre = x :: pre' /\ l = pre' ++ [y].
Proof. destruct pre as [|z pre]; simpl; intros [= -> E]; [left|right]; eauto. Qed.

Lemma bottom_step d d' : sinv d -> terms d -> stepR d d' Ok -> ~ emptied d -> bottom d -> bottom d'.
Proof.
  intros Hs Ht H N B. pose proof (sinv_len _ Hs) as Hl.
  pose proof (terms_look g eof sts sfk acts maps Heof _ Hs Ht) as Hter.
  inversion H as [tok rest n Eb E|n Eb E|n E|E Eb|E Eb|a b E|m Em E|A pr q n fs f E Efs Ef Eq Et Eg|A pr q a b fs f E Efs Ef Eq Eg]; subst; try discriminate.
  - intros pre it Ei. cbn [pushed d_items skipn] in Ei. apply snoc_inv in Ei as [[_ <-]|(pre' & -> & Ei)]; [|eauto].
    unfold lookahead in Hter. now rewrite Eb in Hter.
  - exact B.
  - exact B.
  - assert (nth_error (d_states d) (length (fst pr)) <> None) as Ns by congruence. apply nth_error_Some in Ns.
    assert (length (fst pr) <> length (d_items d)) as Ne by (intros E1; apply N; exists A, pr; auto).
    intros pre it Ei. cbn [pushed d_items] in Ei. apply snoc_inv in Ei as [[Ei _]|(pre' & -> & Ei)].
    + apply (f_equal (@length _)) in Ei. rewrite skipn_length in Ei. simpl in Ei. lia.
    + apply (B (firstn (length (fst pr)) (d_items d) ++ pre')). rewrite <- app_assoc, <- Ei. symmetry. apply firstn_skipn.
Qed.

Lemma bottom_runs d r : runs d r -> sinv d -> terms d -> bottom d ->
  (exists d1, steps d d1 /\ d_finished d1 = false /\ emptied d1) \/ (snd r = Ok -> bottom (fst r)).
Proof.
  intros R. revert d r R. apply (runs_ind (fun d r => sinv d -> terms d -> bottom d ->
    (exists d1, steps d d1 /\ d_finished d1 = false /\ emptied d1) \/ (snd r = Ok -> bottom (fst r)))).
  - intros d Ef _ _ B. right. auto.
  - intros d d' e Ef S _ _ _. right. discriminate.
  - intros d d' r Ef S R IH Hs Ht B. destruct (emptied_dec d) as [E|N]; [left; exists d; split; [constructor|auto]|].
    destruct (step_inv' _ _ _ _ _ _ _ _ L maps Heof _ _ _ Hs Ht S) as [SR H2]. destruct (H2 eq_refl).
    assert (bottom d') as B' by (apply (bottom_step d); auto).
    destruct IH as [(d1 & S1 & E1)|H']; auto.
    left. exists d1. split; auto. eapply steps_cons; eauto.
Qed.
End Chop.

Section Parse.
Context {T : Type} {OT : Ord T}.
Variables (dbg : bool) (start eof : T) (rules : rulemap T) (g : grammar T).
Hypothesis W : wf_rules rules.
Hypothesis Hg : grammar_new dbg start rules eof = Val g.
Context {M : Type}.
Variable maps : reductmap T M.
Variable k : method.
Variable t : tabler T.
Hypothesis Hm : makes k dbg g t.
Hypothesis Heof : term rules eof.
Hypothesis Hcov : covers rules maps.
Variables (buffer : list (token T M)) (d0 : dfa T M).
Hypothesis Hd0 : parser_dfa t buffer maps = Val d0.
Variable input : list (token T M).
Hypothesis Ht : Forall (term rules) (map tk_ty input).

Let Heof' : term (g_rules g) eof.
Proof. rewrite (Wr _ _ _ _ _ Hg). exact Heof. Qed.
Let Hcov' : covers (g_rules g) maps.
Proof. rewrite (Wr _ _ _ _ _ Hg). exact Hcov. Qed.
Let Ht' : terms g (dfa_new input (t_actions t) maps eof).
Proof. unfold terms. rewrite (Wr _ _ _ _ _ Hg). exact Ht. Qed.

Lemma empties_emptied (d : dfa T M) : d_finished d = false -> emptied (t_actions t) d <-> empties t d.
Proof.
  intros Ef. unfold emptied, empties. split.
  - intros (A & pr & E & Hl). apply entry_row in E as (row & E1 & E2). split; auto. exists row, A, pr. auto.
  - intros [_ (row & A & pr & E1 & E2 & Hl)]. exists A, pr. split; auto. unfold entry. now rewrite E1.
Qed.

Lemma reset_chop : forall fuel, dfa_parse fuel d0 input =
  do '(d3, o) <- dfa_start fuel (chop (dfa_new input (t_actions t) maps eof));
  match o with
  | Err e => Val (d3, PErr e)
  | Ok => match d_items d3 with [] => Val (d3, PErr MissingPreviousState) | it :: _ => Val (dfa_reset d3, POk (tk_item it)) end
  end.
Proof. rewrite (makes_dfa _ _ _ _ _ W Hg maps _ _ Hm) in Hd0. injection Hd0 as <-. reflexivity. Qed.

Lemma dfa_parse_same r : (forall d, reaches t input maps d -> ~ empties t d) -> parses t input maps r ->
  exists N d', forall fuel, N <= fuel -> dfa_parse fuel d0 input = Val (d', r).
Proof.
  intros N (d' & o & R & ->)%(parses_runs _ _ _ _ _ W Hg maps _ _ Hm).
  destruct (Wp0 _ _ _ _ _ W Hg) as (p0 & Hp0 & Hp & _). destruct (makes_made _ _ _ _ _ W Hg _ _ _ Hm Hp0) as (sfk & lookf & X).
  pose proof (m_lr0 _ _ _ _ _ _ _ _ _ _ X) as L.
  destruct (chop_runs _ _ _ _ _ _ _ _ L Heof' maps _ _ R (dfa_new_sinv _ _ _ _ _ _) Ht') as (f & E).
  { intros d1 S1 Ef He. apply empties_emptied in He; auto. apply (N d1); auto. eapply steps_reaches; eauto. constructor.
    eapply makes_dfa; eauto. }
  cbn [fst snd] in E. exists f.
  assert (forall fuel, f <= fuel -> dfa_start fuel (chop (dfa_new input (t_actions t) maps eof)) = Val (chop d', o)) as E1.
  { intros fuel Hf. exact (dfa_start_mono _ _ _ E fuel Hf). }
  destruct o as [|e].
  - destruct (d_items d') as [|it l] eqn:Ei.
    + exists (chop d'). intros fuel Hf. rewrite reset_chop, (E1 _ Hf). cbn [bind chop d_items]. now rewrite Ei.
    + exists (dfa_reset (chop d')). intros fuel Hf. rewrite reset_chop, (E1 _ Hf). cbn [bind chop d_items]. now rewrite Ei.
  - exists (chop d'). intros fuel Hf. rewrite reset_chop, (E1 _ Hf). reflexivity.
Qed.

Lemma dfa_parse_panics d : reaches t input maps d -> empties t d ->
  exists N, forall fuel, N <= fuel -> dfa_parse fuel d0 input = Panic P_underflow.
Proof.
  intros H He. pose proof (proj1 He) as Ef. apply (reaches_steps _ _ _ _ _ W Hg maps _ _ Hm) in H.
  destruct (Wp0 _ _ _ _ _ W Hg) as (p0 & Hp0 & Hp & _). destruct (makes_made _ _ _ _ _ W Hg _ _ _ Hm Hp0) as (sfk & lookf & X).
  pose proof (m_lr0 _ _ _ _ _ _ _ _ _ _ X) as L.
  destruct (chop_boom _ _ _ _ _ _ _ _ L Heof' maps Hcov' _ _ H (dfa_new_sinv _ _ _ _ _ _) Ht' Ef) as (N & HN).
  { now apply empties_emptied. }
  exists N. intros fuel Hf. rewrite reset_chop, (HN _ Hf). reflexivity.
Qed.

Lemma dfa_parse_boom m B rhs : start_fresh rules start -> prod_at rules start 0 (B :: rhs) -> nonterm rules B ->
  parses t input maps (POk m) -> exists N, forall fuel, N <= fuel -> dfa_parse fuel d0 input = Panic P_underflow.
Proof.
  intros Hf HB HN Hp. pose proof Hp as Hp'. apply (parses_runs _ _ _ _ _ W Hg maps _ _ Hm) in Hp' as (d' & o & R & Eo). destruct o; [|discriminate].
  destruct (Wp0 _ _ _ _ _ W Hg) as (p0 & Hp0 & Hpr & _). destruct (makes_made _ _ _ _ _ W Hg _ _ _ Hm Hp0) as (sfk & lookf & X).
  pose proof (m_lr0 _ _ _ _ _ _ _ _ _ _ X) as L. pose proof (Wr _ _ _ _ _ Hg) as Er.
  destruct (bottom_runs _ _ _ _ _ _ _ _ L Heof' maps _ _ R (dfa_new_sinv _ _ _ _ _ _) Ht') as [(d1 & S1 & Ef & He)|Hb].
  - intros pre it E. destruct pre; discriminate.
  - apply (dfa_parse_panics d1).
    + eapply steps_reaches; eauto. constructor. eapply makes_dfa; eauto.
    + now apply empties_emptied.
  - exfalso. specialize (Hb eq_refl). cbn [fst] in Hb.
    destruct (run_ok _ _ _ _ _ _ _ _ L maps) with (input := input) (d' := d') as (its & He & Hi); auto; try (rewrite Er; auto).
    assert (fst p0 = B :: rhs) as E0.
    { destruct HB as (r & i & E1 & E2), Hpr as (r' & i' & E3 & E4). rewrite E1 in E3. injection E3 as <-. congruence. }
    rewrite E0 in He. apply (proj2 (evals_ty _ _)) in He. destruct its as [|it its]; [discriminate|]. injection He as Hty _.
    simpl in Hi. apply Hb in Hi. rewrite Er in Hi. rewrite Hty in Hi. exact (Hi HN).
Qed.
End Parse.
