(** A run that does not return turns in a circle of unit reductions (C125) *)
From Coq Require Import List Bool Arith Lia Relation_Operators.
From Verif Require Import BTree Model Base Spec SpecP GrammarP FirstFollow Closure ActTab LR Sound Locality Prefix Halt RunFacts Interface Wrap Values LR1Spec Export Trace TraceSpec TraceP TraceRow CircleSpec.
Import ListNotations.

Section Lr0.
Context {T : Type} {OT : Ord T}.
Variables (g : grammar T) (start eof : T) (p0 : production T).
Variable sts : list (state T).
Variable sfk : state T -> option nat.
Variable lookf : position T -> res (bset T).
Variable acts : acttable T.
Notation rules := (g_rules g).
Notation lr0 := (lr0 g start eof p0 sts sfk lookf acts).
Notation path := (path sts sfk).
Hypothesis L : lr0.
Hypothesis Heof : term rules eof.
Context {M : Type}.
Variable maps : reductmap T M.
Notation sinv := (sinv eof sts sfk acts maps).
Notation stepR := (stepR eof sts sfk acts maps).
Notation terms := (terms g).
Notation stepn := (@stepn T OT M).
Notation N := (length rules).
Notation potential := (@potential T g M).

Lemma stepn_inv n d d' : stepn n d d' -> sinv d -> terms d -> sinv d' /\ terms d'.
Proof.
  induction 1 as [|n d d1 d2 Hf S H IH]; auto. intros Hs Ht.
  destruct (step_inv' _ _ _ _ _ _ _ _ L maps Heof _ _ _ Hs Ht S) as [_ K]. destruct (K eq_refl). auto.
Qed.

(** the same place, seen from the driver *)
Lemma same_alike d d' : sinv d -> sinv d' -> same_place d d' -> alike d d'.
Proof.
  intros H H' (E1 & E2 & E3 & E4). constructor; auto.
  - now rewrite E3.
  - rewrite (si_table _ _ _ _ _ _ H). symmetry. apply H'.
  - pose proof (si_top _ _ _ _ _ _ H). pose proof (si_top _ _ _ _ _ _ H'). congruence.
  - rewrite (si_maps _ _ _ _ _ _ H), (si_maps _ _ _ _ _ _ H'). intros ? ?. reflexivity.
  - rewrite (si_eof _ _ _ _ _ _ H). symmetry. apply H'.
Qed.

(** rounds that neither consume a token nor shorten the stack replace its top by unit productions *)
Lemma flat_rounds n d d' : stepn n d d' -> sinv d -> terms d -> d_finished d' = false ->
  length (d_buffer d') <= length (d_buffer d) /\
  (length (d_buffer d') = length (d_buffer d) -> length (d_items d') <= length (d_items d) /\ d_buffer d' = d_buffer d /\
   (length (d_items d') = length (d_items d) -> n = 0 \/ exists A B rest, map tk_ty (d_items d) = A :: rest /\ map tk_ty (d_items d') = B :: rest /\
      (nonterm rules A -> unit_chain rules B A) /\ nonterm rules B)).
Proof.
  induction 1 as [d|n d d1 d2 Hf S H IH]; intros Hs Ht Hf2; [auto|].
  destruct (step_inv' _ _ _ _ _ _ _ _ L maps Heof _ _ _ Hs Ht S) as [SR K]. destruct (K eq_refl) as [Hs' Ht']. clear K. specialize (IH Hs' Ht' Hf2). destruct IH as [IH1 IH2].
  inversion SR as [tok rest m Eb E|m Eb E|m E|E Eb|E Eb|a b E|m Em E|B pr q m fs f E Efs Ef' Eq Et Eg|B pr q a b fs f E Efs Ef' Eq Eg]; subst.
  - cbn [pushed d_buffer] in *. rewrite Eb. cbn [length]. split; [lia|]. intros K. lia.
  - apply (entry_goto _ _ _ _ _ _ _ _ L) in E as [E _]. exfalso. pose proof (terms_look g eof sts sfk acts maps Heof d Hs Ht). contradiction.
  - exfalso. inversion H; subst; simpl in *; congruence.
  - destruct (reduce_stack g start eof p0 sts sfk lookf acts L maps d B pr Hs E) as (Hpr & Hne & Hlen & Hst). pose proof (prod_nonterm _ _ _ _ Hpr) as HnB.
    cbn [pushed d_buffer d_items] in IH1, IH2. split; auto. intros Eb. destruct (IH2 Eb) as (I1 & I2 & I3). rewrite length_cons, skipn_length in I1, I3.
    assert (length (fst pr) <> 0) as Hz by (destruct (fst pr); simpl; congruence).
    split; [lia|]. split; auto. intros Ei. right. assert (length (fst pr) = 1) as E1 by lia.
    destruct (fst pr) as [|A [|A2 r2]] eqn:Ep; try discriminate. destruct (d_items d) as [|it its] eqn:Edi; [simpl in Hlen; lia|].
    cbn [length firstn map rev app] in Hst. injection Hst as EA. exists A. cbn [map]. rewrite EA. cbn [length skipn map tk_ty] in I3.
    destruct I3 as [I3|I3].
    + simpl in Ei |- *. lia.
    + subst n. inversion H; subst. cbn [pushed d_items map tk_ty skipn length]. rewrite Edi. exists B, (map tk_ty its). split; auto. split; auto.
      split; auto. intros HA. eapply uc_one; eauto.
    + destruct I3 as (A' & B' & rest & [= <- <-] & Y & Z & Z2). exists B', (map tk_ty its). split; auto. split; auto. split; auto. intros HA.
      specialize (Z HnB). clear - Z Hpr HA. induction Z; [eapply uc_more; eauto; eapply uc_one; eauto|eapply uc_more; eauto].
Qed.

Lemma circle_unit n d d' : stepn (S n) d d' -> sinv d -> terms d -> same_place d d' -> exists A rest, map tk_ty (d_items d) = A :: rest /\ unit_chain rules A A.
Proof.
  intros H Hs Ht (E1 & E2 & E3 & E4). assert (d_finished d = false) as Hf by (inversion H; auto).
  destruct (flat_rounds _ _ _ H Hs Ht ltac:(congruence)) as [_ K]. destruct K as (_ & _ & K); [now rewrite E3|].
  destruct K as [K|(A & B & rest & K1 & K2 & K3 & K4)]; [|discriminate|].
  - rewrite <- (map_length tk_ty (d_items d')), E2. apply map_length.
  - rewrite E2, K1 in K2. injection K2 as <-. exists A, rest. split; auto.
Qed.

Definition ustep (q : nat) (x : T) (s s' : nat * T) : Prop :=
  exists i, entry acts (fst s) x = Some (Reduce (snd s') ([snd s], i)) /\ entry acts q (snd s') = Some (Goto (fst s')).

(** the cells of the table such rounds go through *)
Lemma flat_cells n d d' : stepn n d d' -> sinv d -> terms d -> d_finished d' = false -> length (d_buffer d') = length (d_buffer d) -> length (d_items d') = length (d_items d) ->
  n = 0 \/ exists a A b B q qs rest, d_states d = a :: q :: qs /\ map tk_ty (d_items d) = A :: rest /\ d_states d' = b :: q :: qs /\ map tk_ty (d_items d') = B :: rest /\
    clos_trans _ (ustep q (lookahead d)) (a, A) (b, B).
Proof.
  induction 1 as [d|n d d1 d2 Hf S H IH]; intros Hs Ht Hf2 Hlb Hli; [auto|]. right.
  destruct (step_inv' _ _ _ _ _ _ _ _ L maps Heof _ _ _ Hs Ht S) as [SR K]. destruct (K eq_refl) as [Hs' Ht']. clear K. specialize (IH Hs' Ht' Hf2).
  destruct (flat_rounds _ _ _ H Hs' Ht' Hf2) as [FL1 FL2].
  inversion SR as [tok rest m Eb E|m Eb E|m E|E Eb|E Eb|a b E|m Em E|B pr q m fs f E Efs Ef' Eq Et Eg|B pr q a b fs f E Efs Ef' Eq Eg]; subst.
  - cbn [pushed d_buffer] in *. rewrite Eb in Hlb. cbn [length] in Hlb. lia.
  - apply (entry_goto _ _ _ _ _ _ _ _ L) in E as [E _]. exfalso. pose proof (terms_look g eof sts sfk acts maps Heof d Hs Ht). contradiction.
  - exfalso. inversion H; subst; simpl in *; congruence.
  - destruct (reduce_stack g start eof p0 sts sfk lookf acts L maps d B pr Hs E) as (Hpr & Hne & Hlen & Hst).
    remember (pushed d m (mkTok (f (rev (firstn (length (fst pr)) (d_items d)))) B) (d_buffer d) (length (fst pr))) as d1 eqn:Ed1.
    assert (d_items d1 = mkTok (f (rev (firstn (length (fst pr)) (d_items d)))) B :: skipn (length (fst pr)) (d_items d)) as Ei1 by now rewrite Ed1.
    assert (d_buffer d1 = d_buffer d) as Eb1 by now rewrite Ed1. assert (d_eof d1 = d_eof d) as Ee1 by now rewrite Ed1.
    assert (d_states d1 = m :: skipn (length (fst pr)) (d_states d)) as Es1 by now rewrite Ed1.
    assert (lookahead d1 = lookahead d) as Elk by (unfold lookahead; now rewrite Eb1, Ee1).
    rewrite Eb1 in IH, FL2. destruct (FL2 Hlb) as (FL3 & _ & _). rewrite Ei1, length_cons, skipn_length in FL3, IH.
    assert (length (fst pr) <> 0) as Hz by (destruct (fst pr); simpl; congruence).
    assert (length (fst pr) = 1) as E1 by lia. specialize (IH Hlb ltac:(lia)).
    destruct pr as [rhs i]. cbn [fst snd] in *. destruct rhs as [|A [|A2 r2]]; try discriminate. destruct (d_items d) as [|it its] eqn:Edi; [simpl in Hlen; lia|].
    cbn [length firstn map rev app] in Hst. injection Hst as EA. cbn [length skipn] in *.
    pose proof (si_top _ _ _ _ _ _ Hs) as Stop.
    destruct (d_states d) as [|a [|q1 qs]] eqn:Eqs; try discriminate. cbn [nth_error] in Eq. injection Eq as ->. cbn [hd_error] in Stop. injection Stop as ->.
    assert (ustep q (lookahead d) (d_top d, A) (m, B)) as U by (exists i; auto).
    destruct IH as [->|(a' & A' & b & B' & q' & qs' & rest & K1 & K2 & K3 & K4 & K5)].
    + inversion H; subst d2. exists (d_top d), A, m, B, q, qs, (map tk_ty its). rewrite Ei1, Es1. cbn [map tk_ty]. rewrite EA. repeat (split; auto). now apply t_step.
    + rewrite Es1 in K1. injection K1 as <- <- <-. cbn [map tk_ty] in K2. injection K2 as <- <-. rewrite Elk in K5.
      exists (d_top d), A, b, B', q, qs, (map tk_ty its). cbn [map]. rewrite EA. repeat (split; auto). eapply t_trans; [apply t_step|]; eauto.
Qed.

Lemma circle_spins n d d' : stepn (S n) d d' -> sinv d -> terms d -> same_place d d' -> 
  exists a A q qs rest, d_states d = a :: q :: qs /\ map tk_ty (d_items d) = A :: rest /\ clos_trans _ (ustep q (lookahead d)) (a, A) (a, A).
Proof.
  intros H Hs Ht (E1 & E2 & E3 & E4). assert (d_finished d = false) as Hf by (inversion H; auto).
  destruct (flat_cells _ _ _ H Hs Ht ltac:(congruence)) as [K|(a & A & b & B & q & qs & rest & K1 & K2 & K3 & K4 & K5)].
  - now rewrite E3.
  - rewrite <- (map_length tk_ty (d_items d')), E2. apply map_length.
  - discriminate.
  - rewrite E1, K1 in K3. injection K3 as <-. rewrite E2, K2 in K4. injection K4 as <-. exists a, A, q, qs, rest. auto.
Qed.

Hypothesis Hcov : covers rules maps.

(** and where the table spins, so does the driver *)
Lemma spin_rounds q x s s' : clos_trans_1n _ (ustep q x) s s' -> forall d qs rest, sinv d -> terms d -> d_finished d = false -> lookahead d = x ->
  d_states d = fst s :: q :: qs -> map tk_ty (d_items d) = snd s :: rest ->
  exists n d', stepn (S n) d d' /\ sinv d' /\ terms d' /\ d_finished d' = false /\ lookahead d' = x /\ d_buffer d' = d_buffer d /\ d_states d' = fst s' :: q :: qs /\ map tk_ty (d_items d') = snd s' :: rest.
Proof.
  assert (forall s s' d qs rest, ustep q x s s' -> sinv d -> terms d -> d_finished d = false -> lookahead d = x ->
    d_states d = fst s :: q :: qs -> map tk_ty (d_items d) = snd s :: rest ->
    exists d', stepsto d (d', Ok) /\ sinv d' /\ terms d' /\ d_finished d' = false /\ lookahead d' = x /\ d_buffer d' = d_buffer d /\ d_states d' = fst s' :: q :: qs /\ map tk_ty (d_items d') = snd s' :: rest) as One.
  { intros [a A] [b B] d qs rest (i & U1 & U2) Hs Ht Hf Hx E1 E2. cbn [fst snd] in *.
    pose proof (si_top _ _ _ _ _ _ Hs) as Stop. rewrite E1 in Stop. cbn [hd_error] in Stop. injection Stop as ->.
    destruct (step_total' _ _ _ _ _ _ _ _ L maps d Hs (or_introl Hcov)) as (d1 & o & S & SR).
    assert (entry acts (d_top d) (lookahead d) = Some (Reduce B ([A], i))) as U3 by congruence.
    assert (o = Ok /\ d_finished d1 = false /\ lookahead d1 = lookahead d /\ d_buffer d1 = d_buffer d /\ d_states d1 = b :: q :: qs /\ map tk_ty (d_items d1) = B :: rest) as (-> & G).
    { inversion SR as [tok rest' m Eb E|m Eb E|m E|E Eb|E Eb|a0 b0 E|m Em E|B0 pr q0 m fs f E Efs Ef' Eq Et Eg|B0 pr q0 a0 b0 fs f E Efs Ef' Eq Eg]; subst d1 o; try congruence.
      - unfold lookahead in U3. rewrite Eb in U3. congruence.
      - unfold lookahead in U3. rewrite Eb in U3. rewrite (si_eof _ _ _ _ _ _ Hs) in U3. congruence.
      - unfold entry in U3. rewrite Em in U3. congruence.
      - rewrite U3 in E. injection E as <- <-. cbn [fst length] in *. rewrite E1 in Eq. cbn [nth_error] in Eq. injection Eq as <-. rewrite U2 in Eg. injection Eg as <-.
        split; auto. unfold lookahead. cbn [pushed d_finished d_buffer d_eof d_states d_items]. rewrite E1. cbn [skipn map tk_ty]. repeat (split; auto).
        f_equal. destruct (d_items d) as [|it its]; [discriminate|]. cbn [map skipn] in *. congruence.
      - rewrite U3 in E. injection E as <- <-. cbn [fst length] in *. rewrite E1 in Eq. cbn [nth_error] in Eq. injection Eq as <-. congruence. }
    destruct (step_inv' _ _ _ _ _ _ _ _ L maps Heof _ _ _ Hs Ht S) as [_ H1]. destruct (H1 eq_refl) as [Hs' Ht'].
    exists d1. rewrite Hx in G. tauto. }
  induction 1 as [s s' U|s s1 s' U H IH]; intros d qs rest Hs Ht Hf Hx E1 E2.
  - destruct (One _ _ _ _ _ U Hs Ht Hf Hx E1 E2) as (d' & G1 & G). exists 0, d'. split; auto. econstructor; eauto. constructor.
  - destruct (One _ _ _ _ _ U Hs Ht Hf Hx E1 E2) as (d1 & G1 & G2 & G3 & G4 & G5 & G6 & G7 & G8).
    destruct (IH d1 qs rest G2 G3 G4 G5 G7 G8) as (n & d' & K1 & K2 & K3 & K4 & K5 & K6 & K7 & K8). exists (Datatypes.S n), d'. split; [econstructor; eauto|]. rewrite <- G6. auto 10.
Qed.

Variable o0 : dfa T M.

(** the nonterminals the symbol on top of the stack has been since it was pushed by a shift or a
    longer reduction, and when *)
Record seen (c : nat) (d : dfa T M) (vis : list T) : Prop := {
  s_nodup : NoDup vis;
  s_keys : incl vis (bm_keys rules);
  s_old : forall v, In v vis -> exists j n d0 q0, stepn j o0 d0 /\ stepn n d0 d /\ j + n = c /\ n < length vis /\ sinv d0 /\ d_finished d0 = false /\ d_buffer d0 = d_buffer d /\
     map tk_ty (d_items d0) = v :: map tk_ty (tl (d_items d)) /\ d_states d0 = q0 :: tl (d_states d)
}.

Lemma seen_nil c d : seen c d [].
Proof. constructor; [constructor|easy|intros v []]. Qed.

Lemma seen_bound c d vis : seen c d vis -> length vis <= N.
Proof. intros [B1 B2 _]. pose proof (NoDup_incl_length B1 B2) as H. unfold bm_keys in H. now rewrite map_length in H. Qed.

Lemma seen_self c d it its : d_items d = it :: its -> nonterm rules (tk_ty it) -> sinv d -> d_finished d = false -> stepn c o0 d -> seen c d [tk_ty it].
Proof.
  intros Ei Hn Hs Hf Hst. constructor.
  - constructor; [intros []|constructor].
  - intros x [<-|[]]. now apply nonterm_key.
  - intros v [<-|[]]. pose proof (si_top _ _ _ _ _ _ Hs) as Stop. destruct (d_states d) as [|q qs] eqn:Eq; [discriminate|].
    exists c, 0, d, q. split; auto. split; [constructor|]. split; [lia|]. split; [simpl; lia|]. rewrite Ei, Eq. auto.
Qed.

Lemma circle_or_end p : forall c d vis, potential d vis <= p -> stepn c o0 d -> sinv d -> terms d -> d_finished d = false -> seen c d vis ->
  (exists cs d' o, obs d cs d' o) \/
  exists m n d1 d2, stepn m o0 d1 /\ stepn (S n) d1 d2 /\ same_place d1 d2 /\ S n <= N /\ m + S n <= c + S (potential d vis).
Proof.
  induction p as [p IH] using lt_wf_ind. intros c d vis Hp Hst Hs Ht Hf Hb.
  destruct (step_total' _ _ _ _ _ _ _ _ L maps d Hs (or_introl Hcov)) as (d1 & o & S & SR).
  destruct o as [|e]. 2:{ left. exists [d], d1, (Err e). now constructor. }
  destruct (step_inv' _ _ _ _ _ _ _ _ L maps Heof _ _ _ Hs Ht S) as [_ H1]. destruct (H1 eq_refl) as [Hs' Ht']. clear H1.
  pose proof (stepn_snoc _ _ _ _ Hst Hf S) as Hst1.
  assert (forall vis', potential d1 vis' < potential d vis -> d_finished d1 = false -> seen (Datatypes.S c) d1 vis' ->
    (exists cs d' o, obs d cs d' o) \/
    exists m n d1 d2, stepn m o0 d1 /\ stepn (Datatypes.S n) d1 d2 /\ same_place d1 d2 /\ Datatypes.S n <= N /\ m + Datatypes.S n <= c + Datatypes.S (potential d vis)) as Go.
  { intros vis' Hlt Hf1 Hb1. destruct (IH (potential d1 vis') ltac:(lia) _ _ _ (le_n _) Hst1 Hs' Ht' Hf1 Hb1) as [(cs & d' & o & Ho)|(m & n & e1 & e2 & K1 & K2 & K3 & K4 & K5)].
    - left. exists (d :: cs), d', o. eapply obs_step; eauto.
    - right. exists m, n, e1, e2. repeat (split; auto). lia. }
  inversion SR as [tok rest m Eb E|m Eb E|m E|E Eb|E Eb|a b E|m Em E|B pr q m fs f E Efs Ef' Eq Et Eg|B pr q a b fs f E Efs Ef' Eq Eg]; subst.
  - apply (Go []); auto using seen_nil. unfold TraceP.potential. rewrite Eb. cbn [pushed d_items d_buffer length skipn].
    destruct (d_items d); cbn [length] in *; lia.
  - apply (entry_goto _ _ _ _ _ _ _ _ L) in E as [E _]. exfalso. pose proof (terms_look g eof sts sfk acts maps Heof d Hs Ht). contradiction.
  - left. exists [d], (accepted d), Ok. eapply obs_step; eauto. now constructor.
  - destruct (reduce_stack g start eof p0 sts sfk lookf acts L maps d B pr Hs E) as (Hpr & Hne & Hlen & Hstk). pose proof (prod_nonterm _ _ _ _ Hpr) as HnB.
    remember (pushed d m (mkTok (f (rev (firstn (length (fst pr)) (d_items d)))) B) (d_buffer d) (length (fst pr))) as d1 eqn:Ed1.
    assert (d_items d1 = mkTok (f (rev (firstn (length (fst pr)) (d_items d)))) B :: skipn (length (fst pr)) (d_items d)) as Ei1 by now rewrite Ed1.
    assert (d_finished d1 = false) as Hf1 by now rewrite Ed1. assert (d_buffer d1 = d_buffer d) as Eb1 by now rewrite Ed1.
    assert (d_states d1 = m :: skipn (length (fst pr)) (d_states d)) as Es1 by now rewrite Ed1.
    destruct (d_items d) as [|it its] eqn:Ei. { destruct (fst pr); simpl in Hlen; [congruence|lia]. }
    destruct (fst pr) as [|X [|Y rhs]] eqn:Ep; [congruence| |].
    + cbn [length skipn] in Ei1, Es1. pose proof (seen_bound _ _ _ Hb) as Hbd.
      destruct (in_dec ord_dec B vis) as [Hv|Hni].
      * right. destruct (s_old _ _ _ Hb B Hv) as (j & n & d0 & q0 & K1 & K2 & K3 & K4 & K5 & K6 & K7 & K8 & K9). rewrite Ei in K8. cbn [tl] in K8.
        exists j, n, d0, d1. split; auto. split; [eapply stepn_snoc; eauto|]. split; [|split; lia].
        split; [|split; [now rewrite K8, Ei1|split; congruence]].
        rewrite Es1, K9. destruct (d_states d) as [|q1 [|q2 qs]] eqn:Eqs; try discriminate. cbn [length nth_error] in Eq. injection Eq as ->. cbn [tl].
        pose proof (si_path _ _ _ _ _ _ K5) as P. rewrite K8, K9 in P. cbn [tl] in P. inversion P; subst. f_equal. eapply tr_fun; eauto.
      * assert (seen (Datatypes.S c) d1 (B :: vis)) as Hb2.
        { constructor.
          - constructor; auto. apply Hb.
          - intros x [<-|Hx]; [now apply nonterm_key|now apply Hb].
          - intros v [<-|Hv].
            + exists (Datatypes.S c), 0, d1, m. split; auto. split; [constructor|]. split; [lia|]. split; [simpl; lia|]. rewrite Ei1, Es1. auto.
            + destruct (s_old _ _ _ Hb v Hv) as (j & n & d0 & q0 & K1 & K2 & K3 & K4 & K5 & K6 & K7 & K8 & K9). rewrite Ei in K8. cbn [tl] in K8.
              exists j, (Datatypes.S n), d0, q0. split; auto. split; [eapply stepn_snoc; eauto|]. split; [lia|]. split; [simpl; lia|].
              split; auto. split; auto. split; [congruence|]. rewrite Ei1, Es1. cbn [tl]. auto. }
        apply (Go (B :: vis)); auto. pose proof (seen_bound _ _ _ Hb2) as Hbd2. unfold TraceP.potential. rewrite Ei1, Eb1, Ei. cbn [length] in *. lia.
    + assert (seen (Datatypes.S c) d1 [B]) as Hb1 by (apply (seen_self _ d1 _ _ Ei1 HnB Hs' Hf1); auto).
      apply (Go [B]); auto. pose proof (seen_bound _ _ _ Hb1) as Hbd. unfold TraceP.potential. rewrite Ei1, Eb1, Ei.
      rewrite Halt.length_cons, skipn_length. cbn [length] in *. nia.
Qed.
End Lr0.

Section Entry.
Context {T : Type} {OT : Ord T}.
Variables (dbg : bool) (start eof : T) (rules : rulemap T) (g : grammar T).
Hypothesis W : wf_rules rules.
Hypothesis Hg : grammar_new dbg start rules eof = Val g.
Context {M : Type}.
Variable maps : reductmap T M.
Variables (k : method) (t : tabler T).
Hypothesis Hm : makes k dbg g t.
Hypothesis Heof : term rules eof.

Lemma rounds_stepn n (d d' : dfa T M) : rounds n d d' <-> stepn n d d'.
Proof.
  split; induction 1 as [|n a b c H H' IH]; try (now constructor).
  - destruct H. econstructor; eauto.
  - econstructor; eauto. split; auto.
Qed.

Lemma obs_runs (d : dfa T M) cs d' o : obs d cs d' o -> runs d (d', o).
Proof. induction 1; eauto using runs_fin, runs_err, runs_step. Qed.

(** the circle *)
Lemma circle input : covers rules maps -> Forall (term rules) (map tk_ty input) -> (exists r, parses t input maps r) \/
  exists m n d0 d1 d2, parser_dfa t input maps = Val d0 /\ rounds m d0 d1 /\ rounds n d1 d2 /\ same_place d1 d2 /\ 0 < n /\ n <= length rules /\ m + n <= (2 * length rules + 1) * length input + 1.
Proof.
  intros Hc Ht. pose proof (makes_dfa _ _ _ _ _ W Hg maps _ _ Hm input) as Ed. remember (dfa_new input (t_actions t) maps eof) as d eqn:En.
  destruct (Wp0 _ _ _ _ _ W Hg) as (p0 & Hp0 & Hpr & Hz). destruct (makes_made _ _ _ _ _ W Hg _ _ _ Hm Hp0) as (sfk & lookf & X).
  pose proof (m_lr0 _ _ _ _ _ _ _ _ _ _ X) as L. pose proof (Wr _ _ _ _ _ Hg) as Er.
  assert (sinv eof (t_states t) sfk (t_actions t) maps d) as Hs by (subst d; apply (dfa_new_sinv eof maps t)).
  assert (terms g d) as Hd by (unfold terms; rewrite Er, En; exact Ht).
  pose proof (circle_or_end g start eof p0 (t_states t) sfk lookf (t_actions t) L) as H. rewrite Er in H.
  specialize (H Heof _ maps Hc d _ 0 d [] (le_n _) (stepn_0 _) Hs Hd ltac:(now subst d) (seen_nil _ _ _ _ _ _ _ _ _)).
  destruct H as [(cs & d' & o & Ho)|(m & n & d1 & d2 & K1 & K2 & K3 & K4 & K5)].
  - left. apply obs_runs in Ho. eexists. apply (parses_runs _ _ _ _ _ W Hg maps _ _ Hm). exists d', o. rewrite <- En. split; auto.
  - right. exists m, (S n), d, d1, d2. split; auto. split; [now apply rounds_stepn|]. split; [now apply rounds_stepn|]. split; auto. split; [lia|]. split; [lia|].
    unfold potential in K5. rewrite En in K5. cbn [dfa_new d_buffer d_items length] in K5. rewrite Er in K5. lia.
Qed.

Lemma rounds_reaches n input d d' : rounds n d d' -> reaches t input maps d -> reaches t input maps d'.
Proof. induction 1; auto. intros Hr. apply IHrounds. eapply reaches_round; eauto. Qed.

Lemma reaches_rounds input d0 d : parser_dfa t input maps = Val d0 -> reaches t input maps d -> exists m, rounds m d0 d.
Proof.
  intros E. induction 1 as [d E'|d d' H [m IH] R].
  - exists 0. assert (d = d0) as -> by congruence. constructor.
  - exists (S m). clear -IH R. induction IH; econstructor; eauto. constructor.
Qed.

Section Inv.
Variables (input : list (token T M)) (d : dfa T M).
Hypothesis Ht : Forall (term rules) (map tk_ty input).
Hypothesis Hr : reaches t input maps d.

(** conversely, who comes back does not return *)
Lemma no_return n d' : rounds n d d' -> 0 < n -> same_place d d' -> forall r, ~ parses t input maps r.
Proof.
  intros Hn Hp Hsp r H. destruct n as [|n]; [lia|]. apply rounds_stepn in Hn.
  apply (parses_runs _ _ _ _ _ W Hg maps _ _ Hm) in H as (e & o & (fuel & E) & _). rewrite (trace_is_start (fun n _ => S n) fuel 0) in E.
  apply bind_val in E as ([[m e1] o1] & E & [= -> ->]). destruct (trace_obs _ _ _ _ _ _ _ E) as (cs & _ & Ho).
  pose proof Hr as R%(reaches_steps _ _ _ _ _ W Hg maps _ _ Hm).
  destruct (Wp0 _ _ _ _ _ W Hg) as (p0 & Hp0 & Hpr & Hz). destruct (makes_made _ _ _ _ _ W Hg _ _ _ Hm Hp0) as (sfk & lookf & X).
  pose proof (m_lr0 _ _ _ _ _ _ _ _ _ _ X) as L. pose proof (Wr _ _ _ _ _ Hg) as Er.
  assert (term (g_rules g) eof) as He by now rewrite Er.
  destruct (steps_inv _ _ _ _ _ _ _ _ L maps He _ _ R) as [Hs Htm]; [apply (dfa_new_sinv eof maps t)|unfold terms; now rewrite Er|].
  destruct (stepn_inv _ _ _ _ _ _ _ _ L He maps _ _ _ Hn Hs Htm) as [Hs' _]. pose proof (same_alike _ _ _ _ _ _ _ Hs Hs' Hsp) as K.
  assert (exists cs2, obs d' cs2 e o) as (cs2 & Ho2).
  { assert (forall a b, steps a b -> forall cs, obs a cs e o -> d_finished b = false -> exists cs2, obs b cs2 e o) as Along.
    { induction 1 as [|a b c Fa Sa Hc IH]; eauto. intros cs1 H1 Fc. inversion H1 as [x F|x x' e' F S'|x x' cs' x'' o' F S' H']; subst; try congruence.
      - pose proof (stepsto_fun _ _ _ Sa S'). congruence.
      - pose proof (stepsto_fun _ _ _ Sa S') as [= ->]. eauto. }
    assert (d_finished d = false) as Fd by (inversion Hn; auto). destruct (Along _ _ R _ Ho Fd) as (cs1 & H1).
    assert (forall j a b, stepn j a b -> forall cs, obs a cs e o -> exists cs2, obs b cs2 e o) as Along2.
    { induction 1 as [|j a b c Fa Sa Hc IH]; eauto. intros cs1' H1'. inversion H1' as [x F|x x' e' F S'|x x' cs' x'' o' F S' H']; subst; try congruence.
      - pose proof (stepsto_fun _ _ _ Sa S'). congruence.
      - pose proof (stepsto_fun _ _ _ Sa S') as [= ->]. eauto. }
    eauto. }
  exact (no_loop _ _ _ _ _ _ Hn K Ho2).
Qed.

(** on the way round, the symbol on top of the stack runs through a circle of unit productions *)
Lemma circle_chain n d' : rounds n d d' -> 0 < n -> same_place d d' ->
  exists A rest, map tk_ty (d_items d) = A :: rest /\ unit_chain rules A A.
Proof.
  intros Hn Hp Hsp. destruct n as [|n]; [lia|]. apply rounds_stepn in Hn.
  pose proof Hr as R%(reaches_steps _ _ _ _ _ W Hg maps _ _ Hm).
  destruct (Wp0 _ _ _ _ _ W Hg) as (p0 & Hp0 & Hpr & Hz). destruct (makes_made _ _ _ _ _ W Hg _ _ _ Hm Hp0) as (sfk & lookf & X).
  pose proof (m_lr0 _ _ _ _ _ _ _ _ _ _ X) as L. pose proof (Wr _ _ _ _ _ Hg) as Er.
  assert (term (g_rules g) eof) as He by now rewrite Er.
  destruct (steps_inv _ _ _ _ _ _ _ _ L maps He _ _ R) as [Hs Htm]; [apply (dfa_new_sinv eof maps t)|unfold terms; now rewrite Er|].
  destruct (circle_unit _ _ _ _ _ _ _ _ L He maps _ _ _ Hn Hs Htm Hsp) as (A & rest & E1 & E2). rewrite Er in E2. eauto.
Qed.

Lemma ustep_unit q x s s' : ustep (t_actions t) q x s s' <-> unit_step t q x s s'.
Proof.
  destruct s as [n A], s' as [m B]. unfold ustep, unit_step, table_says, entry. cbn [fst snd].
  assert (forall i y a, match nth_error (t_actions t) i with Some row => bm_get y row | None => None end = Some a <->
    exists row, nth_error (t_actions t) i = Some row /\ bm_get y row = Some a) as G.
  { intros i y a. destruct (nth_error (t_actions t) i) as [row|]; split; try discriminate; eauto; now intros (r & [= <-] & H) || (intros (r & K & _); discriminate). }
  split; intros (i & H1 & H2); exists i; split; apply G; auto.
Qed.

Lemma spin_cells n d' : rounds n d d' -> 0 < n -> same_place d d' ->
  exists a A q qs rest, d_states d = a :: q :: qs /\ map tk_ty (d_items d) = A :: rest /\ spins t q (lookahead d) (a, A).
Proof.
  intros Hn Hp Hsp. destruct n as [|n]; [lia|]. apply rounds_stepn in Hn.
  pose proof Hr as R%(reaches_steps _ _ _ _ _ W Hg maps _ _ Hm).
  destruct (Wp0 _ _ _ _ _ W Hg) as (p0 & Hp0 & Hpr & Hz). destruct (makes_made _ _ _ _ _ W Hg _ _ _ Hm Hp0) as (sfk & lookf & X).
  pose proof (m_lr0 _ _ _ _ _ _ _ _ _ _ X) as L. pose proof (Wr _ _ _ _ _ Hg) as Er.
  assert (term (g_rules g) eof) as He by now rewrite Er.
  destruct (steps_inv _ _ _ _ _ _ _ _ L maps He _ _ R) as [Hs Htm]; [apply (dfa_new_sinv eof maps t)|unfold terms; now rewrite Er|].
  destruct (circle_spins _ _ _ _ _ _ _ _ L He maps _ _ _ Hn Hs Htm Hsp) as (a & A & q & qs & rest & E1 & E2 & E3).
  exists a, A, q, qs, rest. split; auto. split; auto. unfold spins.
  assert (forall u v, clos_trans _ (ustep (t_actions t) q (lookahead d)) u v -> clos_trans _ (unit_step t q (lookahead d)) u v) as G; [|now apply G].
  induction 1; [apply t_step; now apply ustep_unit|eapply t_trans; eauto].
Qed.

Lemma spin_circle a A q qs rest : covers rules maps -> d_finished d = false -> d_states d = a :: q :: qs -> map tk_ty (d_items d) = A :: rest -> spins t q (lookahead d) (a, A) ->
  exists n d', rounds n d d' /\ 0 < n /\ same_place d d'.
Proof.
  intros Hc Hf E1 E2 Hsp. pose proof Hr as R%(reaches_steps _ _ _ _ _ W Hg maps _ _ Hm).
  destruct (Wp0 _ _ _ _ _ W Hg) as (p0 & Hp0 & Hpr & Hz). destruct (makes_made _ _ _ _ _ W Hg _ _ _ Hm Hp0) as (sfk & lookf & X).
  pose proof (m_lr0 _ _ _ _ _ _ _ _ _ _ X) as L. pose proof (Wr _ _ _ _ _ Hg) as Er.
  assert (term (g_rules g) eof) as He by now rewrite Er. assert (covers (g_rules g) maps) as Hc' by now rewrite Er.
  destruct (steps_inv _ _ _ _ _ _ _ _ L maps He _ _ R) as [Hs Htm]; [apply (dfa_new_sinv eof maps t)|unfold terms; now rewrite Er|].
  assert (forall u v, clos_trans _ (unit_step t q (lookahead d)) u v -> clos_trans _ (ustep (t_actions t) q (lookahead d)) u v) as G.
  { induction 1; [apply t_step; now apply ustep_unit|eapply t_trans; eauto]. }
  apply G in Hsp. apply Operators_Properties.clos_trans_t1n in Hsp.
  destruct (spin_rounds _ _ _ _ _ _ _ _ L He maps Hc' _ _ _ _ Hsp d qs rest Hs Htm Hf eq_refl E1 E2) as (n & d' & K1 & _ & _ & K4 & _ & K6 & K7 & K8).
  exists (S n), d'. split; [now apply rounds_stepn|]. split; [lia|]. cbn [fst snd] in *. repeat split; congruence.
Qed.
End Inv.

(** when the driver spins *)
Lemma spin_iff input : covers rules maps -> Forall (term rules) (map tk_ty input) ->
  ((forall r, ~ parses t input maps r) <->
   exists d a A q qs rest, reaches t input maps d /\ d_finished d = false /\ d_states d = a :: q :: qs /\ map tk_ty (d_items d) = A :: rest /\ spins t q (lookahead d) (a, A)).
Proof.
  intros Hc Ht. split.
  - intros H. destruct (circle input Hc Ht) as [(r & Hr)|(m & n & d0 & d1 & d2 & E & H1 & H2 & H3 & H4 & _)]; [now apply H in Hr|].
    assert (reaches t input maps d1) as Hr by (eapply rounds_reaches; eauto; now constructor).
    destruct (spin_cells input d1 Ht Hr _ _ H2 H4 H3) as (a & A & q & qs & rest & E1 & E2 & E3). exists d1, a, A, q, qs, rest. split; auto. split; auto.
    inversion H2 as [|? ? ? ? [F _]]; subst; auto. lia.
  - intros (d & a & A & q & qs & rest & Hr & Hf & E1 & E2 & E3). destruct (spin_circle input d Ht Hr _ _ _ _ _ Hc Hf E1 E2 E3) as (n & d' & K1 & K2 & K3).
    eapply no_return; eauto.
Qed.

Lemma spin_free : (forall q x s, ~ spins t q x s) -> forall input, covers rules maps -> Forall (term rules) (map tk_ty input) -> exists r, parses t input maps r.
Proof.
  intros H input Hc Ht. destruct (circle input Hc Ht) as [G|(m & n & d0 & d1 & d2 & E & H1 & H2 & H3 & H4 & _)]; auto. exfalso.
  assert (reaches t input maps d1) as Hr by (eapply rounds_reaches; eauto; now constructor).
  destruct (spin_cells input d1 Ht Hr _ _ H2 H4 H3) as (a & A & q & qs & rest & E1 & E2 & E3). eapply H; eauto.
Qed.

(** so one knows after that many rounds *)
Lemma decided input d : covers rules maps -> Forall (term rules) (map tk_ty input) -> parser_dfa t input maps = Val d ->
  dfa_start ((2 * length rules + 1) * length input + 4) d = Fuel -> forall fuel, dfa_start fuel d = Fuel.
Proof.
  intros Hc Ht Ed H fuel. destruct (dfa_start fuel d) as [[d' o]|p|] eqn:E; auto; exfalso.
  - destruct (linear_rounds _ _ _ _ _ W Hg maps _ _ Hm Heof input d Ht Ed) as (n & e & o' & Hn & K).
    + pose proof (dfa_new_inv _ _ _ _ _ W Hg maps _ _ Hm _ _ Ed) as En. eexists. apply (parses_runs _ _ _ _ _ W Hg maps _ _ Hm). exists d', o. rewrite <- En. split; [now exists fuel|reflexivity].
    + destruct (K ((2 * length rules + 1) * length input + 4) ltac:(lia)) as [K1 _]. congruence.
  - assert (parser_parse fuel t input maps = Panic p) as K by (unfold parser_parse; now rewrite Ed; cbn [bind]; rewrite E).
    revert K. apply (proj1 (Export.no_internal _ _ _ _ _ W Hg _ _ Hm Heof _ maps input (or_intror (or_intror Ht))) Hc).
Qed.
End Entry.
