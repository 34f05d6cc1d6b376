(** What an observer of [Dfa::trace] sees (C95) and how often it is called (C96) *)
From Coq Require Import List Bool Arith Lia.
From Verif Require Import BTree Model Base Spec SpecP GrammarP FirstFollow Closure ActTab LR Sound Locality Prefix Halt RunFacts Interface Wrap Values LR1Spec Trace TraceSpec.
Import ListNotations.

Section Observe.
Context {T : Type} {OT : Ord T} {M A : Type}.
Variable f : A -> dfa T M -> A.

(** *** C95, first part *)
Lemma trace_is_start fuel : forall a d, dfa_start fuel d = (do '(_, d', o) <- dfa_trace_with (looking f) fuel a d; Val (d', o)).
Proof.
  induction fuel as [|n IH]; intros a d; [reflexivity|]. cbn [dfa_start dfa_trace_with]. destruct (d_finished d); [reflexivity|].
  unfold looking at 1. destruct (travel n d (lookahead d)) as [[d' [|e]]|p|]; cbn [bind]; auto.
Qed.

(** the configurations shown to the observer *)
Inductive obs : dfa T M -> list (dfa T M) -> dfa T M -> outcome T -> Prop :=
| obs_fin d : d_finished d = true -> obs d [] d Ok
| obs_err d d' e : d_finished d = false -> stepsto d (d', Err e) -> obs d [d] d' (Err e)
| obs_step d d1 cs d' o : d_finished d = false -> stepsto d (d1, Ok) -> obs d1 cs d' o -> obs d (d :: cs) d' o.

Lemma trace_obs fuel : forall a d a' d' o, dfa_trace_with (looking f) fuel a d = Val (a', d', o) -> exists cs, a' = fold_left f cs a /\ obs d cs d' o.
Proof.
  induction fuel as [|n IH]; intros a d a' d' o E; [discriminate|]. cbn [dfa_trace_with] in E. destruct (d_finished d) eqn:Ef.
  - injection E as <- <- <-. exists []. split; auto. now constructor.
  - unfold looking at 1 in E. inv_bind E. destruct a0 as [d1 [|e]].
    + apply IH in H0 as (cs & -> & Ho). exists (d :: cs). split; auto. eapply obs_step; eauto. now exists n.
    + injection H0 as <- <- <-. exists [d]. split; auto. apply obs_err; auto. now exists n.
Qed.
End Observe.

Lemma last_next {X} (l : list X) : forall x y, last (y :: l) x = last l y.
Proof. induction l as [|z l IH]; intros x y; [reflexivity|]. change (last (y :: z :: l) x) with (last (z :: l) x). now rewrite (IH x z), (IH y z). Qed.

Section Linked.
Context {X : Type} (R : X -> X -> Prop).
Lemma linked_last (P : X -> Prop) : (forall x y, R x y -> P y -> P x) -> forall l x, linked R x l -> P (last l x) -> Forall P (x :: l).
Proof.
  intros HP. induction l as [|y l IH]; intros x Hl Hx; [now constructor|]. destruct Hl as [H1 H2].
  rewrite last_next in Hx. pose proof (IH y H2 Hx) as H3. constructor; auto. inversion H3; subst. eauto.
Qed.
End Linked.

Section Shown.
Context {T : Type} {OT : Ord T}.
Variable rules : rulemap T.
Lemma linked_terms : forall l x, linked (shift_reduce rules) x l -> Forall (term rules) (snd x) -> Forall (fun c => Forall (term rules) (snd c)) (x :: l).
Proof.
  induction l as [|y l IH]; intros x Hl Hx; [now constructor|]. destruct Hl as [H1 H2]. constructor; auto. apply IH; auto.
  inversion H1; subst; auto. simpl in *. now inversion Hx.
Qed.
Lemma linked_rms S : forall l x, linked (shift_reduce rules) x l -> Forall (term rules) (snd x) -> rms rules [S] (fst (last l x) ++ snd (last l x)) ->
  Forall (fun c => rms rules [S] (fst c ++ snd c)) (x :: l).
Proof.
  intros l x Hl Hx Hr.
  assert (Forall (fun c => Forall (term rules) (snd c) -> rms rules [S] (fst c ++ snd c)) (x :: l)) as H.
  { apply (linked_last (shift_reduce rules)); auto. intros c c' H IH Ht.
    inversion H; subst; simpl in *.
    - replace (s ++ x0 :: w) with ((s ++ [x0]) ++ w) by (rewrite <- app_assoc; reflexivity). apply IH. now inversion Ht.
    - eapply rms_snoc; [apply IH; auto|]. rewrite <- !app_assoc. econstructor; eauto. }
  pose proof (linked_terms _ _ Hl Hx) as Ht. rewrite Forall_forall in *. auto.
Qed.
End Shown.

Section Lr0.
Context {T : Type} {OT : Ord T}.
Variables (g : grammar T) (start eof : T) (p0 : production T).
Variable sts : list (state T).
Variable sfk : state T -> option nat.
Variable lookf : position T -> res (bset T).
Variable acts : acttable T.
Notation rules := (g_rules g).
Notation lr0 := (lr0 g start eof p0 sts sfk lookf acts).
Notation path := (path sts sfk).
Hypothesis L : lr0.
Hypothesis Heof : term rules eof.
Context {M : Type}.
Variable maps : reductmap T M.
Notation sinv := (sinv eof sts sfk acts maps).
Notation stepR := (stepR eof sts sfk acts maps).
Notation terms := (terms g).

(** a reduction finds its right-hand side on the stack *)
Lemma reduce_stack d B pr : sinv d -> entry acts (d_top d) (lookahead d) = Some (Reduce B pr) ->
  prod_at rules B (snd pr) (fst pr) /\ fst pr <> [] /\ length (fst pr) <= length (d_items d) /\ rev (map tk_ty (firstn (length (fst pr)) (d_items d))) = fst pr.
Proof.
  intros Hs E. apply (entry_reduce _ _ _ _ _ _ _ _ L) in E as [HA Hl]. apply hasl_has in Hl as Hh'.
  pose proof (si_path _ _ _ _ _ _ Hs) as Sp. pose proof (si_top _ _ _ _ _ _ Hs) as Stop.
  destruct (d_states d) as [|q0 qs] eqn:Eqs; [discriminate|]. simpl in Stop. injection Stop as ->.
  destruct (path_item _ _ _ _ _ _ _ _ L _ _ _ _ _ _ Sp Hh') as (H1 & H2 & _). rewrite firstn_all in H2.
  apply (l_valid _ _ _ _ _ _ _ _ L) in Hh' as [Hpr _]. rewrite map_length in H1.
  split; auto. split; [eapply (l_noempty _ _ _ _ _ _ _ _ L); eauto|]. split; auto. rewrite <- firstn_map. exact H2.
Qed.

Lemma step_shown d d' : sinv d -> terms d -> d_finished d = false -> stepR d d' Ok -> (d_finished d' = true /\ d_items d' = d_items d /\ d_buffer d = [] /\
    (exists pr, has sts (d_top d) start pr (length (fst pr)))) \/
  (d_finished d' = false /\ shift_reduce rules (shown d) (shown d')).
Proof.
  intros Hs Ht Hnf SR.
  inversion SR as [tok rest m Eb E|m Eb E|m E|E Eb|E Eb|a b E|m Em E|B pr q m fs f E Efs Ef' Eq Et Eg|B pr q a b fs f E Efs Ef' Eq Eg]; subst.
  - right. split; [exact Hnf|]. unfold shown. cbn [pushed d_items d_buffer skipn map rev]. rewrite Eb. cbn [map]. constructor.
  - apply (entry_goto _ _ _ _ _ _ _ _ L) in E as [E _]. exfalso. pose proof (terms_look g eof sts sfk acts maps Heof d Hs Ht). contradiction.
  - left. split; auto. split; auto. split; auto. apply (entry_acc _ _ _ _ _ _ _ _ L) in E as (pr & Hh). apply hasl_has in Hh. eauto.
  - right. split; [exact Hnf|]. destruct (reduce_stack d B pr Hs E) as (Hpr & _ & _ & Hst).
    unfold shown. cbn [pushed d_items d_buffer map rev tk_ty].
    rewrite <- (firstn_skipn (length (fst pr)) (d_items d)) at 1. rewrite map_app, rev_app_distr, Hst. econstructor; eauto.
Qed.

Lemma obs_linked d cs d' o : obs d cs d' o -> sinv d -> terms d -> d_finished d = false ->
  exists cs', cs = d :: cs' /\ linked (shift_reduce rules) (shown d) (map shown cs') /\ Forall (steps d) cs /\
    (o = Ok -> start_fresh rules start -> shown (last cs' d) = (fst p0, [])).
Proof.
  induction 1 as [d Hf|d d1 e Hf S|d d1 cs d' o Hf S H IH]; intros Hs Ht Hf'; [congruence| |].
  - exists []. split; auto. split; [exact I|]. split; [repeat constructor|]. discriminate.
  - destruct (step_inv' _ _ _ _ _ _ _ _ L maps Heof _ _ _ Hs Ht S) as [SR H1]. destruct (H1 eq_refl) as [Hs' Ht']. clear H1.
    exists cs. split; auto. destruct (step_shown d d1 Hs Ht Hf SR) as [(F & Ei & Eb & pr & Hh)|(F & R)].
    + inversion H; subst; try congruence. split; [exact I|]. split; [repeat constructor|]. intros _ Hfr. simpl.
      pose proof (si_path _ _ _ _ _ _ Hs) as Sp. pose proof (si_top _ _ _ _ _ _ Hs) as Stop.
      destruct (d_states d) as [|q0 qs] eqn:Eqs; [discriminate|]. simpl in Stop. injection Stop as ->.
      destruct (acc_path _ _ _ _ _ _ _ _ L _ _ _ _ Hfr Sp Hh) as [_ E]. unfold shown. now rewrite E, Eb.
    + destruct (IH Hs' Ht' F) as (cs' & -> & Hl & Hst & Hok). split; [split; auto|]. split.
      * constructor; [constructor|]. eapply Forall_impl; [|exact Hst]. intros x. eapply steps_cons; eauto.
      * intros E Hfr. rewrite <- (Hok E Hfr). f_equal. apply last_next.
Qed.

(** *** the number of rounds *)
Lemma alike_step (d1 d2 d1' : dfa T M) o : alike d1 d2 -> stepsto d1 (d1', o) -> exists d2', stepsto d2 (d2', o) /\ alike d1' d2'.
Proof.
  intros K (n & E). rewrite (alike_look _ _ K) in E. pose proof (alike_travel n d1 d2 (lookahead d2) K) as H. rewrite E in H.
  destruct (travel n d2 (lookahead d2)) as [[d2' o2]|p|] eqn:E2; simpl in H; try contradiction. destruct H as [H1 H2]. simpl in *. subst o2.
  exists d2'. split; auto. now exists n.
Qed.

Lemma obs_alike (d1 : dfa T M) cs1 d1' o : obs d1 cs1 d1' o -> forall d2 : dfa T M, alike d1 d2 -> exists cs2 d2', obs d2 cs2 d2' o /\ length cs2 = length cs1.
Proof.
  induction 1 as [d Hf|d d' e Hf S|d d' cs d'' o Hf S H IH]; intros d2 K; pose proof (k_finished _ _ K) as Kf; rewrite Hf in Kf; symmetry in Kf.
  - exists [], d2. split; auto. now constructor.
  - destruct (alike_step _ _ _ _ K S) as (d2' & S2 & _). exists [d2], d2'. split; auto. now constructor.
  - destruct (alike_step _ _ _ _ K S) as (d2' & S2 & K2). destruct (IH _ K2) as (cs2 & e & H2 & El). exists (d2 :: cs2), e. split; [|simpl; congruence].
    eapply obs_step; eauto.
Qed.

Lemma obs_fun (d : dfa T M) cs d' o : obs d cs d' o -> forall cs2 d2 o2, obs d cs2 d2 o2 -> cs2 = cs.
Proof.
  induction 1 as [d Hf|d d' e Hf S|d d' cs d'' o Hf S H IH]; intros cs2 d2 o2 H2; inversion H2 as [x F|x x' e' F S'|x x' cs' x'' o' F S' H']; subst; try congruence.
  - pose proof (stepsto_fun _ _ _ S S'). congruence.
  - pose proof (stepsto_fun _ _ _ S S'). congruence.
  - pose proof (stepsto_fun _ _ _ S S') as [= ->]. f_equal. eauto.
Qed.

Inductive stepn : nat -> dfa T M -> dfa T M -> Prop :=
| stepn_0 d : stepn 0 d d
| stepn_S n d d1 d2 : d_finished d = false -> stepsto d (d1, Ok) -> stepn n d1 d2 -> stepn (S n) d d2.
Lemma stepn_snoc n d1 d2 d3 : stepn n d1 d2 -> d_finished d2 = false -> stepsto d2 (d3, Ok) -> stepn (S n) d1 d3.
Proof. induction 1; intros; econstructor; eauto. constructor. Qed.
Lemma obs_stepn n d d' : stepn n d d' -> forall cs e o, obs d' cs e o -> exists cs', obs d cs' e o /\ length cs' = n + length cs.
Proof.
  induction 1 as [d|n d d1 d2 Hf S H IH]; intros cs e o Ho; [eauto|]. destruct (IH _ _ _ Ho) as (cs' & H1 & H2). exists (d :: cs'). split; [eapply obs_step; eauto|simpl; lia].
Qed.

(** a run that comes back to the same stack does not end *)
Lemma no_loop n d d' cs e o : stepn (S n) d d' -> alike d d' -> obs d' cs e o -> False.
Proof.
  intros Hn K Ho. destruct (obs_stepn _ _ _ Hn _ _ _ Ho) as (cs1 & H1 & E1). destruct (obs_alike _ _ _ _ H1 _ K) as (cs2 & e2 & H2 & E2).
  rewrite (obs_fun _ _ _ _ Ho _ _ _ H2) in E2. lia.
Qed.

Notation N := (length rules).

(** the nonterminals the symbol on top of the stack has been since it was pushed by a shift or a longer reduction *)
Record been (d : dfa T M) (vis : list T) : Prop := {
  b_nodup : NoDup vis;
  b_keys : incl vis (bm_keys rules);
  b_old : forall v, In v vis -> exists n d0 q0, stepn n d0 d /\ sinv d0 /\ d_finished d0 = false /\ d_buffer d0 = d_buffer d /\
     map tk_ty (d_items d0) = v :: map tk_ty (tl (d_items d)) /\ d_states d0 = q0 :: tl (d_states d)
}.

Definition potential (d : dfa T M) (vis : list T) : nat :=
  (2 * N + 1) * length (d_buffer d) + N * length (d_items d) + (match d_items d with [] => 0 | _ => N - length vis end).

Lemma been_nil d : been d [].
Proof. constructor; [constructor|easy|intros v []]. Qed.

Lemma nonterm_key B : nonterm rules B -> In B (bm_keys rules).
Proof. intros (r & Hr). apply bm_get_in in Hr. apply in_map_iff. exists (B, r). auto. Qed.

Lemma been_self d it its vis : d_items d = it :: its -> nonterm rules (tk_ty it) -> sinv d -> d_finished d = false ->
  NoDup (tk_ty it :: vis) -> been d vis -> been d (tk_ty it :: vis).
Proof.
  intros Ei Hn Hs Hf Hnd [B1 B2 B3]. constructor; auto.
  - intros x [<-|Hx]; auto. now apply nonterm_key.
  - intros v [<-|Hv]; auto. pose proof (si_top _ _ _ _ _ _ Hs) as Stop. destruct (d_states d) as [|q qs] eqn:Eq; [discriminate|].
    exists 0, d, q. split; [constructor|]. rewrite Ei, Eq. auto.
Qed.

Lemma been_bound d vis : been d vis -> length vis <= N.
Proof. intros [B1 B2 _]. pose proof (NoDup_incl_length B1 B2) as H. unfold bm_keys in H. now rewrite map_length in H. Qed.

Lemma obs_bound d cs d' o : obs d cs d' o -> sinv d -> terms d -> forall vis, been d vis -> length cs <= S (potential d vis).
Proof.
  induction 1 as [d Hf|d d1 e Hf S|d d1 cs d' o Hf S H IH]; intros Hs Ht vis Hb; [simpl; lia|simpl; lia|]. cbn [length]. apply le_n_S.
  destruct (step_inv' _ _ _ _ _ _ _ _ L maps Heof _ _ _ Hs Ht S) as [SR H1]. destruct (H1 eq_refl) as [Hs' Ht']. clear H1.
  inversion SR as [tok rest m Eb E|m Eb E|m E|E Eb|E Eb|a b E|m Em E|B pr q m fs f E Efs Ef' Eq Et Eg|B pr q a b fs f E Efs Ef' Eq Eg]; subst.
  - specialize (IH Hs' Ht' [] (been_nil _)). unfold potential in *. rewrite Eb. cbn [pushed d_items d_buffer length skipn] in IH. cbn [length].
    destruct (d_items d); cbn [length] in *; lia.
  - apply (entry_goto _ _ _ _ _ _ _ _ L) in E as [E _]. exfalso. pose proof (terms_look g eof sts sfk acts maps Heof d Hs Ht). contradiction.
  - inversion H; subst; simpl in *; try congruence. lia.
  - destruct (reduce_stack d B pr Hs E) as (Hpr & Hne & Hlen & Hst). pose proof (prod_nonterm _ _ _ _ Hpr) as HnB.
    remember (pushed d m (mkTok (f (rev (firstn (length (fst pr)) (d_items d)))) B) (d_buffer d) (length (fst pr))) as d1 eqn:Ed1.
    assert (d_items d1 = mkTok (f (rev (firstn (length (fst pr)) (d_items d)))) B :: skipn (length (fst pr)) (d_items d)) as Ei1 by now rewrite Ed1.
    assert (d_finished d1 = false) as Hf1 by now rewrite Ed1. assert (d_buffer d1 = d_buffer d) as Eb1 by now rewrite Ed1.
    assert (d_states d1 = m :: skipn (length (fst pr)) (d_states d)) as Es1 by now rewrite Ed1.
    destruct (d_items d) as [|it its] eqn:Ei. { destruct (fst pr); simpl in Hlen; [congruence|lia]. }
    destruct (fst pr) as [|X [|Y rhs]] eqn:Ep; [congruence| |].
    + cbn [length skipn] in Ei1, Es1.
      assert (been d1 vis) as Hb1.
      { constructor; [apply Hb|apply Hb|]. intros v Hv. destruct (b_old _ _ Hb v Hv) as (n & d0 & q0 & K1 & K2 & K3 & K4 & K5 & K6).
        exists (Datatypes.S n), d0, q0. split; [eapply stepn_snoc; eauto|]. split; auto. split; auto. split; [congruence|]. rewrite Ei1, Es1. cbn [tl]. rewrite Ei in K5. cbn [tl] in K5.
        split; auto. }
      assert (~ In B vis) as Hni.
      { intros Hv. destruct (b_old _ _ Hb B Hv) as (n & d0 & q0 & K1 & K2 & K3 & K4 & K5 & K6). rewrite Ei in K5. cbn [tl] in K5.
        apply (no_loop n d0 d1 cs d' o); auto; [eapply stepn_snoc; eauto|].
        assert (d_states d1 = d_states d0) as Est.
        { rewrite Es1, K6. destruct (d_states d) as [|q1 [|q2 qs]] eqn:Eqs; try discriminate. cbn [length nth_error] in Eq. injection Eq as ->. cbn [tl].
          pose proof (si_path _ _ _ _ _ _ K2) as P. rewrite K5, K6 in P. cbn [tl] in P. inversion P; subst. f_equal. eapply tr_fun; eauto. }
        constructor.
        - now rewrite K4, Eb1.
        - auto.
        - rewrite K5, Ei1. reflexivity.
        - rewrite (si_table _ _ _ _ _ _ K2). symmetry. apply Hs'.
        - pose proof (si_top _ _ _ _ _ _ K2). pose proof (si_top _ _ _ _ _ _ Hs'). congruence.
        - congruence.
        - rewrite (si_maps _ _ _ _ _ _ K2), (si_maps _ _ _ _ _ _ Hs'). intros ? ?. reflexivity.
        - rewrite (si_eof _ _ _ _ _ _ K2). symmetry. apply Hs'. }
      assert (NoDup (B :: vis)) as Hnd by (constructor; auto; apply Hb).
      pose proof (been_self d1 _ _ vis Ei1 HnB Hs' Hf1 Hnd Hb1) as Hb2. cbn [tk_ty] in Hb2. specialize (IH Hs' Ht' _ Hb2).
      pose proof (been_bound _ _ Hb2) as Hbd. unfold potential in *. rewrite Ei1, Eb1 in IH. rewrite Ei. cbn [length] in *. lia.
    + assert (been d1 [B]) as Hb1.
      { apply (been_self d1 _ _ [] Ei1 HnB Hs' Hf1); [repeat constructor; intros []|apply been_nil]. }
      specialize (IH Hs' Ht' _ Hb1). pose proof (been_bound _ _ Hb1) as Hbd. unfold potential in *. rewrite Ei1, Eb1 in IH. rewrite Ei.
      rewrite Halt.length_cons, skipn_length in IH. cbn [length] in *. nia.
Qed.
End Lr0.
