(** Facts about the automaton behind a generated table, common to Slr, Clr and
    Lalr, and the driver's stack invariant. *)
From Coq Require Import List Bool Arith Lia.
From Verif Require Import BTree Model Base Spec SpecP GrammarP FirstFollow Closure ActTab.
Import ListNotations.

(** ** the driver, independently of any table *)
Section Driver.
Context {T : Type} {OT : Ord T} {M : Type}.

Lemma travel_mono fuel (d : dfa T M) s r : travel fuel d s = Val r -> forall fuel', fuel <= fuel' -> travel fuel' d s = Val r.
Proof.
  revert d s. induction fuel as [|n IH]; intros d s E [|m] L; simpl in *; try discriminate; try lia.
  destruct (nth_error (d_table d) (d_top d)) as [st|]; auto.
  destruct (bm_get s st) as [[| |A pr| |]|]; auto.
  destruct (dfa_pop d A pr); simpl in *; try discriminate. apply IH; auto. lia.
Qed.

Lemma travel_fun f1 f2 (d : dfa T M) s r1 r2 : travel f1 d s = Val r1 -> travel f2 d s = Val r2 -> r1 = r2.
Proof.
  intros E1 E2. apply travel_mono with (fuel' := max f1 f2) in E1; [|lia].
  apply travel_mono with (fuel' := max f1 f2) in E2; [|lia]. congruence.
Qed.

Lemma dfa_start_mono fuel (d : dfa T M) r : dfa_start fuel d = Val r -> forall fuel', fuel <= fuel' -> dfa_start fuel' d = Val r.
Proof.
  revert d. induction fuel as [|n IH]; intros d E [|m] L; simpl in *; try discriminate; try lia.
  destruct (d_finished d); auto. inv_bind E. destruct a as [d' o].
  rewrite (travel_mono _ _ _ _ H m) by lia. simpl. destruct o; auto. apply IH; auto. lia.
Qed.

(** the driver, started in [d], returns [r] *)
Definition runs (d : dfa T M) (r : dfa T M * outcome T) : Prop := exists fuel, dfa_start fuel d = Val r.
(** one round of the driver's loop *)
Definition stepsto (d : dfa T M) (r : dfa T M * outcome T) : Prop := exists fuel, travel fuel d (lookahead d) = Val r.

Lemma runs_fun d r1 r2 : runs d r1 -> runs d r2 -> r1 = r2.
Proof.
  intros (f1 & E1) (f2 & E2). apply dfa_start_mono with (fuel' := max f1 f2) in E1; [|lia].
  apply dfa_start_mono with (fuel' := max f1 f2) in E2; [|lia]. congruence.
Qed.

Lemma stepsto_fun d r1 r2 : stepsto d r1 -> stepsto d r2 -> r1 = r2.
Proof. intros (f1 & E1) (f2 & E2). eapply travel_fun; eauto. Qed.

Lemma runs_fin d : d_finished d = true -> runs d (d, Ok).
Proof. intros E. exists 1. simpl. now rewrite E. Qed.

Lemma runs_step d d' r : d_finished d = false -> stepsto d (d', Ok) -> runs d' r -> runs d r.
Proof.
  intros E (f1 & E1) (f2 & E2). exists (S (max f1 f2)). simpl. rewrite E.
  rewrite (travel_mono _ _ _ _ E1 (max f1 f2)) by lia. simpl.
  apply dfa_start_mono with f2; auto. lia.
Qed.

Lemma runs_err d d' e : d_finished d = false -> stepsto d (d', Err e) -> runs d (d', Err e).
Proof. intros E (f1 & E1). exists (S f1). simpl. rewrite E, E1. reflexivity. Qed.

Lemma runs_inv d r : runs d r ->
  (d_finished d = true /\ r = (d, Ok)) \/
  (d_finished d = false /\ exists d' o, stepsto d (d', o) /\ match o with Ok => runs d' r | Err e => r = (d', Err e) end).
Proof.
  intros ([|f] & E); simpl in E; [discriminate|]. destruct (d_finished d); [left; split; congruence|]. right. split; auto.
  inv_bind E. destruct a as [d' o]. exists d', o. split; [exists f; auto|]. destruct o; [exists f; auto|congruence].
Qed.

(** induction on a terminating run *)
Lemma runs_ind (P : dfa T M -> dfa T M * outcome T -> Prop) :
  (forall d, d_finished d = true -> P d (d, Ok)) ->
  (forall d d' e, d_finished d = false -> stepsto d (d', Err e) -> P d (d', Err e)) ->
  (forall d d' r, d_finished d = false -> stepsto d (d', Ok) -> runs d' r -> P d' r -> P d r) ->
  forall d r, runs d r -> P d r.
Proof.
  intros H1 H2 H3 d r (f & E). revert d E. induction f as [|f IH]; intros d E; simpl in E; [discriminate|].
  destruct (d_finished d) eqn:Ef; [injection E as <-; auto|]. inv_bind E. destruct a as [d' o].
  assert (stepsto d (d', o)) by (exists f; auto). destruct o.
  - eapply H3; eauto. exists f; auto.
  - injection H0 as <-. auto.
Qed.

(** successful rounds *)
Inductive steps : dfa T M -> dfa T M -> Prop :=
| steps_refl d : steps d d
| steps_cons d d1 d2 : d_finished d = false -> stepsto d (d1, Ok) -> steps d1 d2 -> steps d d2.

Lemma steps_trans a b c : steps a b -> steps b c -> steps a c.
Proof. induction 1; eauto using steps. Qed.
Lemma steps_one a b : d_finished a = false -> stepsto a (b, Ok) -> steps a b.
Proof. intros. eapply steps_cons; eauto. constructor. Qed.
Lemma steps_runs d d' r : steps d d' -> runs d' r -> runs d r.
Proof. induction 1; auto. intros. eapply runs_step; eauto. Qed.

Lemma runs_steps d r : runs d r -> exists d', steps d d' /\ runs d' r /\
  ((d_finished d' = true /\ r = (d', Ok)) \/ exists d'' e, d_finished d' = false /\ stepsto d' (d'', Err e) /\ r = (d'', Err e)).
Proof.
  revert d r. apply runs_ind.
  - intros d E. exists d. split; [constructor|]. split; [now apply runs_fin|auto].
  - intros d d' e E S. exists d. split; [constructor|]. split; [now apply runs_err|]. eauto 6.
  - intros d d' r E S R (d2 & S2 & R2 & H). exists d2. split; [|auto]. eapply steps_cons; eauto.
Qed.
End Driver.

Section LR.
Context {T : Type} {OT : Ord T}.
Variables (g : grammar T) (start eof : T) (p0 : production T).
Variable sts : list (state T).
Variable sfk : state T -> option nat.
Variable lookf : position T -> res (bset T).
Variable acts : acttable T.
Notation rules := (g_rules g).

(** state [q] contains the item [A -> rhs] with the dot at [p] *)
Definition has (q : nat) (A : T) (pr : production T) (p : nat) : Prop :=
  exists row l, nth_error sts q = Some row /\ In (mkPos A pr p l) row.

(** ... with [t] in the lookahead set consulted when it is complete *)
Definition hasl (q : nat) (A : T) (pr : production T) (p : nat) (t : T) : Prop :=
  exists row l look, nth_error sts q = Some row /\ In (mkPos A pr p l) row /\
    lookf (mkPos A pr p l) = Val look /\ In t look.

Definition tr (q : nat) (X : T) (n : nat) : Prop :=
  exists row pos, nth_error sts q = Some row /\ In pos row /\ ptop pos = Some X /\ sfk (sym_filter row X) = Some n.

Lemma hasl_has q A pr p t : hasl q A pr p t -> has q A pr p.
Proof. intros (row & l & _ & H1 & H2 & _). exists row, l. auto. Qed.

Lemma tr_fun q X n m : tr q X n -> tr q X m -> n = m.
Proof. intros (r & p & H1 & H2 & H3 & H4) (r' & p' & H1' & H2' & H3' & H4'). congruence. Qed.

(** why an item is in a state *)
Inductive just : nat -> T -> production T -> nat -> Prop :=
| j_basis : just 0 start p0 0
| j_kernel q A pr p : has q A pr (S p) -> just q A pr (S p)
| j_clo q A pr p B i rhs : just q A pr p -> nth_error (fst pr) p = Some B -> prod_at rules B i rhs ->
    just q B (rhs, i) 0.

Record lr0 : Prop := {
  l_wf : wf_rules rules;
  l_noempty : noempty rules;
  l_basis : g_basis g = mkPos start p0 0 [eof];
  l_valid : forall q A pr p, has q A pr p -> prod_at rules A (snd pr) (fst pr) /\ p <= length (fst pr);
  l_start : has 0 start p0 0;
  l_zero : forall A pr p, has 0 A pr p -> p = 0;
  l_tr : forall q A pr p X, has q A pr p -> nth_error (fst pr) p = Some X -> exists n, tr q X n;
  l_len : forall q X n, tr q X n -> n < length sts;
  l_fwd : forall q X n A pr p, tr q X n -> has q A pr p -> nth_error (fst pr) p = Some X -> has n A pr (S p);
  l_back : forall q X n A pr p, tr q X n -> has n A pr (S p) -> has q A pr p /\ nth_error (fst pr) p = Some X;
  l_clo : forall q A pr p B i rhs, has q A pr p -> nth_error (fst pr) p = Some B -> prod_at rules B i rhs -> has q B (rhs, i) 0;
  l_just : forall q A pr p, has q A pr p -> just q A pr p;
  l_acts : proc_actions g lookf sfk sts = Val acts
}.

Hypothesis L : lr0.

Lemma prod_at_fun A i r1 r2 : prod_at rules A i r1 -> prod_at rules A i r2 -> r1 = r2.
Proof. intros (r & k & E1 & E2) (r' & k' & E1' & E2'). congruence. Qed.

Lemma just_has q A pr p : just q A pr p -> has q A pr p.
Proof.
  induction 1; auto.
  - apply (l_start L).
  - eapply (l_clo L); eauto.
Qed.

Lemma just_inv0 q A pr : just q A pr 0 ->
  (q = 0 /\ A = start /\ pr = p0) \/
  exists A1 pr1 p1, just q A1 pr1 p1 /\ nth_error (fst pr1) p1 = Some A /\ prod_at rules A (snd pr) (fst pr).
Proof.
  intros J. remember 0 as z eqn:Ez in J at 1. destruct J; auto; [discriminate|]. right. exists A, pr, p. auto.
Qed.

Lemma ptop_nth A (pr : production T) p l : ptop (mkPos A pr p l) = nth_error (fst pr) p.
Proof. unfold ptop, peek. simpl. now rewrite Nat.add_0_r. Qed.

Lemma has_row q A pr p : has q A pr p -> q < length sts.
Proof. intros (row & l & H & _). apply nth_error_Some. congruence. Qed.

(** ** entries *)
Lemma row_spec q row : nth_error sts q = Some row ->
  exists m, nth_error acts q = Some m /\ row_ok g lookf sfk start row m.
Proof.
  intros H. pose proof (proc_actions_spec _ _ _ _ _ (l_acts L)) as [_ Hr].
  rewrite (l_basis L) in Hr. apply Hr in H. exact H.
Qed.

Lemma row_spec' q m : nth_error acts q = Some m ->
  exists row, nth_error sts q = Some row /\ row_ok g lookf sfk start row m.
Proof.
  intros H. assert (q < length sts) as Hq.
  { pose proof (proc_actions_spec _ _ _ _ _ (l_acts L)) as [<- _]. apply nth_error_Some. congruence. }
  apply nth_error_Some in Hq. destruct (nth_error sts q) as [row|] eqn:E; [|congruence].
  destruct (row_spec _ _ E) as (m' & E' & H'). exists row. split; congruence.
Qed.

Definition conflicted (q : nat) (t : T) : Prop := exists a b, entry acts q t = Some (Conflict a b).

Lemma entry_shift q t n : entry acts q t = Some (Shift n) -> term rules t /\ tr q t n.
Proof.
  unfold entry. destruct (nth_error acts q) as [m|] eqn:E; [|discriminate]. intros Ht.
  apply row_spec' in E as (row & Er & Hok). apply (row_ok_entry _ _ _ _ _ _ _ _ Hok) in Ht as [(pos & Hp & Hd) _]; auto.
  inversion Hd; subst. split; auto. exists row, pos. auto.
Qed.

Lemma entry_goto q t n : entry acts q t = Some (Goto n) -> nonterm rules t /\ tr q t n.
Proof.
  unfold entry. destruct (nth_error acts q) as [m|] eqn:E; [|discriminate]. intros Ht.
  apply row_spec' in E as (row & Er & Hok). apply (row_ok_entry _ _ _ _ _ _ _ _ Hok) in Ht as [(pos & Hp & Hd) _]; auto.
  inversion Hd; subst. split; auto. exists row, pos. auto.
Qed.

Lemma done_point q row pos : nth_error sts q = Some row -> In pos row -> ptop pos = None ->
  p_point pos = length (fst (p_seq pos)).
Proof.
  intros Er Hp Et. destruct pos as [A pr p l]. rewrite ptop_nth in Et. apply nth_error_None in Et.
  destruct (l_valid L q A pr p) as [_ Hle]; [exists row, l; auto|]. simpl. lia.
Qed.

Lemma entry_reduce q t A pr : entry acts q t = Some (Reduce A pr) ->
  A <> start /\ hasl q A pr (length (fst pr)) t.
Proof.
  unfold entry. destruct (nth_error acts q) as [m|] eqn:E; [|discriminate]. intros Ht.
  apply row_spec' in E as (row & Er & Hok). apply (row_ok_entry _ _ _ _ _ _ _ _ Hok) in Ht as [(pos & Hp & Hd) _]; auto.
  inversion Hd; subst. split; auto. exists row, (p_look pos), look.
  rewrite <- (done_point q row pos) by auto. destruct pos; auto.
Qed.

Lemma entry_acc q t : entry acts q t = Some Acc -> exists pr, hasl q start pr (length (fst pr)) t.
Proof.
  unfold entry. destruct (nth_error acts q) as [m|] eqn:E; [|discriminate]. intros Ht.
  apply row_spec' in E as (row & Er & Hok). apply (row_ok_entry _ _ _ _ _ _ _ _ Hok) in Ht as [(pos & Hp & Hd) _]; auto.
  inversion Hd as [| | |t' look H1 H2 H3 H4]. exists (p_seq pos), row, (p_look pos), look.
  rewrite <- (done_point q row pos) by auto. rewrite <- H4. destruct pos; auto.
Qed.

Lemma has_entry q A pr p X n : has q A pr p -> nth_error (fst pr) p = Some X -> tr q X n ->
  entry acts q X = Some (if is_terminal g X then Shift n else Goto n) \/ conflicted q X.
Proof.
  intros (row & l & Er & Hp) Et (row' & pos' & Er' & _ & _ & Es). rewrite Er in Er'. injection Er' as <-.
  destruct (row_spec _ _ Er) as (m & Em & Hok). unfold conflicted, entry. rewrite Em.
  eapply row_ok_dec; eauto. destruct (is_terminal g X) eqn:Ei; constructor; auto; try now rewrite ptop_nth.
  - now apply is_terminal_term.
  - now apply is_terminal_nonterm.
Qed.

Lemma hasl_entry q A pr t : hasl q A pr (length (fst pr)) t ->
  entry acts q t = Some (if eqb A start then Acc else Reduce A pr) \/ conflicted q t.
Proof.
  intros (row & l & look & Er & Hp & El & Ht).
  destruct (row_spec _ _ Er) as (m & Em & Hok). unfold conflicted, entry. rewrite Em.
  eapply row_ok_dec; eauto.
  assert (ptop (mkPos A pr (length (fst pr)) l) = None) as Et by (rewrite ptop_nth; now apply nth_error_None).
  destruct (eqb_spec A start) as [->|N].
  - eapply dec_acc; eauto.
  - exact (dec_reduce g lookf sfk start row _ t look Et El Ht N).
Qed.

Lemma clean_no_conflict q t : conflicts acts = [] -> ~ conflicted q t.
Proof.
  intros Hc (a & b & E). unfold entry in E. destruct (nth_error acts q) as [m|] eqn:Em; [|discriminate].
  assert (In (Conflict a b) (conflicts acts)) as H; [|now rewrite Hc in H].
  apply in_conflicts. split; auto. exists q, m, t. split; auto. now apply bm_get_in.
Qed.

Lemma no_conflict_clean : (forall q t, ~ conflicted q t) -> conflicts acts = [].
Proof.
  intros H. destruct (conflicts acts) as [|a l] eqn:E; auto. exfalso.
  assert (In a (conflicts acts)) as Ha by (rewrite E; now left).
  apply in_conflicts in Ha as [Hc (q & row & t & Hq & Ha)]. destruct a; try discriminate.
  apply (H q t). exists a1, a2. unfold entry. rewrite Hq. apply bm_in_get; auto.
  apply row_spec' in Hq as (r & _ & Hs & _). auto.
Qed.

(** ** paths *)
Inductive path : list nat -> list T -> Prop :=
| path_nil : path [0] []
| path_cons q qs X Xs n : path (q :: qs) Xs -> tr q X n -> path (n :: q :: qs) (X :: Xs).

Lemma path_len qs Xs : path qs Xs -> length qs = S (length Xs).
Proof. induction 1; simpl in *; lia. Qed.

Lemma path_top qs Xs : path qs Xs -> exists q qs', qs = q :: qs' /\ q < length sts.
Proof.
  destruct 1.
  - exists 0, []. split; auto. eapply has_row, (l_start L).
  - exists n, (q :: qs). split; auto. eapply (l_len L); eauto.
Qed.

Lemma path_skip qs Xs k : path qs Xs -> k <= length Xs -> path (skipn k qs) (skipn k Xs).
Proof.
  intros H. revert k. induction H as [|q qs X Xs n H IH Ht]; intros [|k] Hk; simpl in *; try lia.
  - constructor.
  - econstructor; eauto.
  - apply IH. lia.
Qed.

(** following an item back along the stack *)
Lemma path_item p : forall q qs Xs A pr, path (q :: qs) Xs -> has q A pr p ->
  p <= length Xs /\ rev (firstn p Xs) = firstn p (fst pr) /\
  exists q', nth_error (q :: qs) p = Some q' /\ has q' A pr 0.
Proof.
  induction p as [|p IH]; intros q qs Xs A pr Hp Hh.
  - simpl. split; [lia|]. split; auto. exists q. auto.
  - inversion Hp as [|q1 qs1 X Xs1 n Hp1 Ht]; subst.
    + apply (l_zero L) in Hh. discriminate.
    + destruct (l_back L _ _ _ _ _ _ Ht Hh) as [Hh1 Hn].
      destruct (IH _ _ _ _ _ Hp1 Hh1) as (H1 & H2 & q' & H3 & H4). simpl. split; [lia|]. split; [|eauto].
      rewrite H2. clear - Hn. revert Hn. generalize (fst pr) as l. induction p as [|p IHp]; intros [|y l] Hn; simpl in *; try discriminate; [congruence|].
      f_equal. now apply IHp.
Qed.

(** a complete item of a rule other than the start rule can always be reduced *)
Lemma reduce_ok q qs Xs A pr : path (q :: qs) Xs -> has q A pr (length (fst pr)) -> A <> start ->
  length (fst pr) <= length Xs /\ rev (firstn (length (fst pr)) Xs) = fst pr /\
  exists q' qs' n, skipn (length (fst pr)) (q :: qs) = q' :: qs' /\ has q' A pr 0 /\ tr q' A n /\
    path (q' :: qs') (skipn (length (fst pr)) Xs) /\
    (entry acts q' A = Some (Goto n) \/ conflicted q' A).
Proof.
  intros Hp Hh Hs. destruct (path_item _ _ _ _ _ _ Hp Hh) as (H1 & H2 & q' & H3 & H4).
  rewrite firstn_all in H2. split; auto. split; auto.
  rewrite (skipn_nth_cons _ _ _ H3). exists q', (skipn (S (length (fst pr))) (q :: qs)).
  assert (exists B pr' p, has q' B pr' p /\ nth_error (fst pr') p = Some A) as (B & pr' & p & Hh' & Hn').
  { pose proof (l_just L _ _ _ _ H4) as J. inversion J; subst; try congruence.
    exists A0, pr0, p. split; auto. now apply just_has. }
  destruct (l_tr L _ _ _ _ _ Hh' Hn') as (n & Ht). exists n. split; auto. split; auto. split; auto. split.
  - rewrite <- (skipn_nth_cons _ _ _ H3). now apply path_skip.
  - destruct (has_entry _ _ _ _ _ _ Hh' Hn' Ht) as [E|E]; auto. left. rewrite E.
    assert (is_terminal g A = false) as ->; auto. apply is_terminal_nonterm.
    destruct (l_valid L _ _ _ _ H4) as [Hpr _]. now apply prod_nonterm in Hpr.
Qed.

(** ** the driver on such a table *)
Section Run.
Context {M : Type}.
Variable maps : reductmap T M.

Record sinv (d : dfa T M) : Prop := {
  si_table : d_table d = acts;
  si_path : path (d_states d) (map tk_ty (d_items d));
  si_top : hd_error (d_states d) = Some (d_top d);
  si_maps : d_reductors d = maps;
  si_eof : d_eof d = eof
}.

Definition pushed (d : dfa T M) (n : nat) (it : token T M) (buf : list (token T M)) (k : nat) : dfa T M :=
  mkDfa buf (n :: skipn k (d_states d)) (it :: skipn k (d_items d)) (d_table d) n (d_finished d) (d_reductors d) (d_eof d).

Definition popped (d : dfa T M) (q : nat) (it : token T M) (k : nat) : dfa T M :=
  mkDfa (d_buffer d) (skipn k (d_states d)) (it :: skipn k (d_items d)) (d_table d) q (d_finished d) (d_reductors d) (d_eof d).

Definition accepted (d : dfa T M) : dfa T M :=
  mkDfa (d_buffer d) (d_states d) (d_items d) (d_table d) (d_top d) true (d_reductors d) (d_eof d).

(** what one round of the driver can do *)
Inductive stepR (d : dfa T M) : dfa T M -> outcome T -> Prop :=
| sr_shift tok rest n : d_buffer d = tok :: rest -> entry acts (d_top d) (tk_ty tok) = Some (Shift n) ->
    stepR d (pushed d n tok rest 0) Ok
| sr_eof n : d_buffer d = [] -> entry acts (d_top d) eof = Some (Shift n) -> stepR d d (Err UnexpectedEof)
| sr_goto n : entry acts (d_top d) (lookahead d) = Some (Goto n) -> stepR d (fst (dfa_goto d n)) Ok
| sr_acc : entry acts (d_top d) (lookahead d) = Some Acc -> d_buffer d = [] -> stepR d (accepted d) Ok
| sr_acc_early : entry acts (d_top d) (lookahead d) = Some Acc -> d_buffer d <> [] -> stepR d (accepted d) (Err IncompleteExec)
| sr_conflict a b : entry acts (d_top d) (lookahead d) = Some (Conflict a b) -> stepR d d (Err (ConflictErr a b))
| sr_unexpected m : nth_error acts (d_top d) = Some m -> bm_get (lookahead d) m = None ->
    stepR d d (Err (UnexpectedToken (lookahead d) (bm_keys m)))
| sr_reduce A pr q n fs f : entry acts (d_top d) (lookahead d) = Some (Reduce A pr) ->
    bm_get A maps = Some fs -> nth_error fs (snd pr) = Some f ->
    nth_error (d_states d) (length (fst pr)) = Some q -> tr q A n -> entry acts q A = Some (Goto n) ->
    stepR d (pushed d n (mkTok (f (rev (firstn (length (fst pr)) (d_items d)))) A) (d_buffer d) (length (fst pr))) Ok
| sr_reduce_conflict A pr q a b fs f : entry acts (d_top d) (lookahead d) = Some (Reduce A pr) ->
    bm_get A maps = Some fs -> nth_error fs (snd pr) = Some f ->
    nth_error (d_states d) (length (fst pr)) = Some q -> entry acts q A = Some (Conflict a b) ->
    stepR d (popped d q (mkTok (f (rev (firstn (length (fst pr)) (d_items d)))) A) (length (fst pr))) (Err (ConflictErr a b)).

Lemma step_total' d : sinv d -> covers rules maps \/ (exists r, stepsto d r) -> exists d' o, stepsto d (d', o) /\ stepR d d' o.
Proof.
  intros S Hcov. destruct S as [St Sp Stop Sm Se].
  destruct (path_top _ _ Sp) as (q & qs & Eq & Hlt). assert (Etop : d_top d = q) by (rewrite Eq in Stop; simpl in Stop; congruence).
  apply nth_error_Some in Hlt. destruct (nth_error sts q) as [row|] eqn:Er; [|congruence].
  destruct (row_spec _ _ Er) as (m & Em & Hok).
  assert (Een : entry acts (d_top d) (lookahead d) = bm_get (lookahead d) m) by (unfold entry; now rewrite Etop, Em).
  unfold stepsto in *.
  assert (Etr : forall fuel, travel (S fuel) d (lookahead d) =
     match bm_get (lookahead d) m with
     | None => Val (d, Err (UnexpectedToken (lookahead d) (bm_keys m)))
     | Some (Shift to) => Val (dfa_shift d to)
     | Some (Goto to) => Val (dfa_goto d to)
     | Some (Reduce name prod) => do d' <- dfa_pop d name prod; travel fuel d' name
     | Some Acc => Val (dfa_accept d)
     | Some (Conflict a b) => Val (d, Err (ConflictErr a b))
     end).
  { intros fuel. simpl. rewrite St, Etop, Em. reflexivity. }
  destruct (bm_get (lookahead d) m) as [[n|n|A pr| |a b]|] eqn:Ee.
  - destruct (d_buffer d) as [|tok rest] eqn:Eb.
    + exists d, (Err UnexpectedEof). split.
      * exists 1. rewrite Etr. unfold dfa_shift. now rewrite Eb.
      * eapply sr_eof; eauto. rewrite <- Se. unfold lookahead in Een. rewrite Eb in Een. exact Een.
    + exists (pushed d n tok rest 0), Ok. split.
      * exists 1. rewrite Etr. unfold dfa_shift. now rewrite Eb.
      * eapply sr_shift; eauto. unfold lookahead in Een. rewrite Eb in Een. exact Een.
  - exists (fst (dfa_goto d n)), Ok. split; [exists 1; rewrite Etr; reflexivity|]. now apply sr_goto.
  - pose proof (entry_reduce _ _ _ _ Een) as [HA Hh]. apply hasl_has in Hh. rewrite Etop in Hh. rewrite Eq in Sp.
    destruct (reduce_ok _ _ _ _ _ Sp Hh HA) as (H1 & H2 & q' & qs' & n & H3 & H4 & H5 & H6 & H7).
    destruct (l_valid L _ _ _ _ Hh) as [Hpr _].
    assert (exists fs f, bm_get A maps = Some fs /\ nth_error fs (snd pr) = Some f) as (fs & f & Efs & Ef).
    { destruct Hcov as [Hcov|(r & [|fuel] & Hr)]; [eauto|discriminate Hr|]. rewrite Etr in Hr. apply bind_val in Hr as (d1 & Hd & _).
      unfold dfa_pop in Hd. destruct (length (d_items d) <? length (fst pr)); [discriminate|].
      apply bind_val in Hd as (fs & H8 & Hd). apply bind_val in Hd as (f & H9 & Hd). apply expect_val in H8, H9. rewrite Sm in H8. eauto. }
    rewrite map_length in H1.
    assert (Enq : nth_error (d_states d) (length (fst pr)) = Some q').
    { rewrite Eq. rewrite <- (Nat.add_0_r (length (fst pr))), <- nth_error_skipn, H3. reflexivity. }
    set (it := mkTok (f (rev (firstn (length (fst pr)) (d_items d)))) A).
    assert (Epop : dfa_pop d A pr = Val (popped d q' it (length (fst pr)))).
    { unfold dfa_pop. apply Nat.ltb_ge in H1. rewrite H1. rewrite <- Sm in Efs. rewrite Efs. simpl. rewrite Ef. simpl. rewrite Enq. simpl. reflexivity. }
    assert (exists m', nth_error acts q' = Some m' /\ entry acts q' A = bm_get A m') as (m' & Em' & Ee').
    { destruct H4 as (row' & l' & Er' & _). destruct (row_spec _ _ Er') as (m' & Em' & _). exists m'. split; auto.
      unfold entry. now rewrite Em'. }
    destruct H7 as [H7|(a & b & H7)].
    + exists (pushed d n it (d_buffer d) (length (fst pr))), Ok. split.
      * exists 2. rewrite Etr, Epop. simpl. rewrite St, Em', <- Ee', H7. reflexivity.
      * eapply sr_reduce; eauto.
    + exists (popped d q' it (length (fst pr))), (Err (ConflictErr a b)). split.
      * exists 2. rewrite Etr, Epop. simpl. rewrite St, Em', <- Ee', H7. reflexivity.
      * eapply sr_reduce_conflict; eauto.
  - destruct (d_buffer d) as [|tok rest] eqn:Eb.
    + exists (accepted d), Ok. split; [exists 1; rewrite Etr; unfold dfa_accept; rewrite Eb|now apply sr_acc].
      unfold accepted. now rewrite Eb.
    + exists (accepted d), (Err IncompleteExec). split; [exists 1; rewrite Etr; unfold dfa_accept; rewrite Eb|apply sr_acc_early; auto; congruence].
      unfold accepted. now rewrite Eb.
  - exists d, (Err (ConflictErr a b)). split; [exists 1; now rewrite Etr|]. now apply sr_conflict.
  - exists d, (Err (UnexpectedToken (lookahead d) (bm_keys m))). split; [exists 1; now rewrite Etr|].
    eapply sr_unexpected; eauto. now rewrite Etop.
Qed.

Lemma step_total d : covers rules maps -> sinv d -> exists d' o, stepsto d (d', o) /\ stepR d d' o.
Proof. intros Hcov S. apply step_total'; auto. Qed.

Lemma step_inv d d' o : sinv d -> stepsto d (d', o) -> stepR d d' o.
Proof.
  intros S H. destruct (step_total' d S) as (d1 & o1 & H1 & H2); eauto.
  pose proof (stepsto_fun _ _ _ H H1) as [= -> ->]. auto.
Qed.

Lemma entry_row q t a : entry acts q t = Some a -> exists m, nth_error acts q = Some m /\ bm_get t m = Some a.
Proof. unfold entry. destruct (nth_error acts q) as [m|]; [eauto|discriminate]. Qed.

Lemma step_of d d' o : sinv d -> stepR d d' o -> stepsto d (d', o).
Proof.
  intros S H. destruct S as [St Sp Stop Sm Se]. unfold stepsto.
  destruct H as [tok rest n Eb E|n Eb E|n E|E Eb|E Eb|a b E|m Em E|A pr q n fs f E Efs Ef Eq Et Eg|A pr q a b fs f E Efs Ef Eq Eg];
    try (pose proof (entry_row _ _ _ E) as (m & Em & Ee)); rewrite <- St in Em.
  - exists 1. simpl. unfold lookahead. rewrite Eb, Em, Ee. unfold dfa_shift. now rewrite Eb.
  - exists 1. simpl. unfold lookahead. rewrite Eb, Em, Se, Ee. unfold dfa_shift. now rewrite Eb.
  - exists 1. simpl. now rewrite Em, Ee.
  - exists 1. simpl. rewrite Em, Ee. unfold dfa_accept. rewrite Eb. unfold accepted. now rewrite Eb.
  - exists 1. simpl. rewrite Em, Ee. unfold dfa_accept. destruct (d_buffer d) eqn:Eb'; [congruence|]. unfold accepted. now rewrite Eb'.
  - exists 1. simpl. now rewrite Em, Ee.
  - exists 1. simpl. now rewrite Em, E.
  - pose proof (entry_row _ _ _ Eg) as (m' & Em' & Ee'); rewrite <- St in Em'. exists 2. simpl. rewrite Em, Ee. 
    unfold dfa_pop. assert (length (d_items d) <? length (fst pr) = false) as ->.
    { apply Nat.ltb_ge. assert (nth_error (d_states d) (length (fst pr)) <> None) as N by congruence.
      apply nth_error_Some in N. apply path_len in Sp. rewrite map_length in Sp. lia. }
    rewrite <- Sm in Efs. rewrite Efs. simpl. rewrite Ef. simpl. rewrite Eq. simpl. rewrite Em', Ee'.
    reflexivity.
  - pose proof (entry_row _ _ _ Eg) as (m' & Em' & Ee'); rewrite <- St in Em'. exists 2. simpl. rewrite Em, Ee. 
    unfold dfa_pop. assert (length (d_items d) <? length (fst pr) = false) as ->.
    { apply Nat.ltb_ge. assert (nth_error (d_states d) (length (fst pr)) <> None) as N by congruence.
      apply nth_error_Some in N. apply path_len in Sp. rewrite map_length in Sp. lia. }
    rewrite <- Sm in Efs. rewrite Efs. simpl. rewrite Ef. simpl. rewrite Eq. simpl. rewrite Em', Ee'.
    reflexivity.
Qed.

(** the stack invariant survives every successful round whose lookahead is a terminal *)
Lemma step_sinv d d' : sinv d -> term rules (lookahead d) -> stepR d d' Ok -> sinv d'.
Proof.
  intros [St Sp Stop Sm Se] Ht H.
  inversion H as [tok rest n Eb E|n Eb E|n E|E Eb|E Eb|a b E|m Em E|A pr q n fs f E Efs Ef Eq Et Eg|A pr q a b fs f E Efs Ef Eq Eg];
    subst; try discriminate.
  - constructor; simpl; auto. destruct (d_states d) as [|q qs]; [discriminate|]. simpl in Stop. injection Stop as ->.
    econstructor; eauto. apply entry_shift in E. tauto.
  - apply entry_goto in E as [E _]. contradiction.
  - constructor; simpl; auto.
  - constructor; simpl; auto.
    assert (nth_error (d_states d) (length (fst pr)) <> None) as N by congruence.
    apply nth_error_Some in N. pose proof (path_len _ _ Sp) as Hl.
    pose proof (path_skip _ _ (length (fst pr)) Sp) as Sp'. rewrite (skipn_nth_cons _ _ _ Eq) in *.
    rewrite skipn_map in Sp'. econstructor; auto. apply Sp'. lia.
Qed.

Lemma dfa_new_sinv input : sinv (dfa_new input acts maps eof).
Proof. constructor; simpl; auto. constructor. Qed.

(** ** values *)
Definition vinv (input : list (token T M)) (d : dfa T M) : Prop :=
  exists used, input = used ++ d_buffer d /\ evals_seq rules maps (rev (map tk_ty (d_items d))) used (rev (d_items d)).

Lemma step_vinv input d d' : sinv d -> term rules (lookahead d) -> vinv input d -> stepR d d' Ok -> vinv input d'.
Proof.
  intros [St Sp Stop Sm Se] Ht (used & Ei & Hv) H.
  inversion H as [tok rest n Eb E|n Eb E|n E|E Eb|E Eb|a b E|m Em E|A pr q n fs f E Efs Ef Eq Et Eg|A pr q a b fs f E Efs Ef Eq Eg];
    subst; try discriminate.
  - exists (used ++ [tok]). simpl. split; [rewrite Eb, <- app_assoc; reflexivity|].
    apply evals_snoc; auto. apply evals_tok. unfold lookahead in Ht. now rewrite Eb in Ht.
  - apply entry_goto in E as [E _]. contradiction.
  - exists used. auto.
  - exists used. simpl. split; auto.
    pose proof (entry_reduce _ _ _ _ E) as [HA Hh]. apply hasl_has in Hh.
    destruct (d_states d) as [|q0 qs] eqn:Eqs; [discriminate|]. simpl in Stop. injection Stop as ->.
    destruct (reduce_ok _ _ _ _ _ Sp Hh HA) as (H1 & H2 & _).
    destruct (l_valid L _ _ _ _ Hh) as [Hpr _].
    set (k := length (fst pr)) in *.
    assert (Esp : d_items d = firstn k (d_items d) ++ skipn k (d_items d)) by now rewrite firstn_skipn.
    rewrite Esp in Hv. rewrite map_app, !rev_app_distr in Hv.
    apply evals_app in Hv as (w1 & w2 & t1 & t2 & -> & Et12 & Hv1 & Hv2).
    assert (length t1 = length (rev (skipn k (d_items d)))) as Hlen.
    { apply (proj2 (evals_ty rules maps)) in Hv1. apply (f_equal (@length _)) in Hv1.
      rewrite map_length in Hv1. rewrite Hv1, !rev_length, map_length. reflexivity. }
    assert (rev (skipn k (d_items d)) = t1 /\ rev (firstn k (d_items d)) = t2) as [<- <-].
    { clear - Et12 Hlen. revert Et12 Hlen. generalize (rev (skipn k (d_items d))) as a. generalize (rev (firstn k (d_items d))) as b.
      intros b a. revert t1. induction a as [|x a IH]; intros [|y t1] E Hl; simpl in *; try discriminate; auto.
      injection E as -> E. destruct (IH t1 E) as [-> ->]; auto. }
    apply evals_snoc; auto.
    eapply evals_rule; eauto. rewrite <- firstn_map, H2 in Hv2. exact Hv2.
Qed.
End Run.
End LR.
