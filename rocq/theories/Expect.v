(** The keys of the action table's rows: every symbol a row names can legally come next (C81). *)
From Coq Require Import List Bool Arith Lia.
From Verif Require Import BTree Model Base Spec SpecP GrammarP FirstFollow Closure ActTab LR Sound CanonLR Complete Locality Prefix Halt RunFacts.
From Verif Require Import Interface Wrap Mono Bogus Final Export.
Import ListNotations.

Section Keys.
Context {T : Type} {OT : Ord T}.
Variables (g : grammar T) (start eof : T) (p0 : production T).
Variable sts : list (state T).
Variable sfk : state T -> option nat.
Variable lookf : position T -> res (bset T).
Variable acts : acttable T.
Notation rules := (g_rules g).
Notation lr0 := (lr0 g start eof p0 sts sfk lookf acts).
Notation has := (has sts).
Notation hasl := (hasl sts lookf).
Hypothesis L : lr0.
Hypothesis Heof : term rules eof.

(** an entry comes from a position with the symbol behind the dot, or from a finished one *)
Lemma entry_origin q t a : entry acts q t = Some a ->
  (exists A pr p, has q A pr p /\ nth_error (fst pr) p = Some t) \/ exists A pr, hasl q A pr (length (fst pr)) t.
Proof.
  unfold entry. destruct (nth_error acts q) as [m|] eqn:E; [|discriminate]. intros Ht.
  apply (row_spec' _ _ _ _ _ _ _ _ L) in E as (row & Er & Hok).
  assert (exists pos act, In pos row /\ dec g lookf sfk start row pos t act) as (pos & act & Hp & Hd).
  { destruct Hok as (_ & H & Hw). destruct (is_conflict a) eqn:Ec.
    - destruct (Hw _ _ Ht Ec) as (x & y & Hx & _). destruct (proj1 (H t x)) as (pos & ? & ?); eauto.
    - destruct (proj1 (H t a)) as (pos & ? & ?); eauto. exists a. rewrite leaves_plain by auto. simpl. auto. }
  pose proof (done_point _ _ _ _ _ _ _ _ L q row pos Er Hp) as Hdone.
  destruct pos as [A pr p l]. cbn [p_point p_seq p_rule] in Hdone.
  destruct Hd as [t n Et Hx _|t n Et Hx _|t look Et Hl Hi _|t look Et Hl Hi _].
  - left. rewrite ptop_nth in Et. exists A, pr, p. split; auto. exists row, l. auto.
  - left. rewrite ptop_nth in Et. exists A, pr, p. split; auto. exists row, l. auto.
  - right. exists A, pr. rewrite <- Hdone by auto. exists row, l, look. auto.
  - right. exists A, pr. rewrite <- Hdone by auto. exists row, l, look. auto.
Qed.

Section Run.
Context {M : Type}.
Variable maps : reductmap T M.
Notation init input := (dfa_new input acts maps eof).

(** what the configuration before an UnexpectedToken looks like *)
Lemma unexpected_state input d' x es used : Forall (term rules) (map tk_ty input) ->
  runs (init input) (d', Err (UnexpectedToken x es)) -> input = used ++ d_buffer d' ->
  exists q qs Xs row, path sts sfk (q :: qs) Xs /\ nth_error acts q = Some row /\ es = bm_keys row /\
    derives rules (rev Xs) (map tk_ty used) /\ Forall (term rules) (map tk_ty used).
Proof.
  intros Ht R Eu. apply runs_steps in R as (d1 & St & R & [[_ E]|(d2 & e' & Ef & S2 & [= <- <-])]); [discriminate|].
  destruct (steps_vinv _ _ _ _ _ _ _ _ L Heof maps _ _ St Ht) as (Hs & Hter & used' & Eu' & Hev).
  destruct (step_inv' _ _ _ _ _ _ _ _ L maps Heof _ _ _ Hs Hter S2) as [SR _].
  inversion SR as [| | | | | |m Em En Ed Et| |]; subst d' x es.
  assert (used' = used) as -> by (apply (app_inv_tail (d_buffer d1)); congruence). clear Eu'.
  pose proof (si_path _ _ _ _ _ _ Hs) as Sp. pose proof (si_top _ _ _ _ _ _ Hs) as Stop.
  destruct (d_states d1) as [|q0 qs] eqn:Eqs; [discriminate|]. simpl in Stop. injection Stop as ->.
  apply (proj2 (evals_derives rules maps)) in Hev as [Hd Hter']. exists (d_top d1), qs, (map tk_ty (d_items d1)), m. auto.
Qed.
End Run.

Lemma shift_next q qs Xs A pr p x : path sts sfk (q :: qs) Xs -> has q A pr p -> nth_error (fst pr) p = Some x ->
  exists v, derives rules [start] (rev Xs ++ x :: v).
Proof.
  intros Sp Hh Hn. destruct (has_valid _ _ _ _ _ _ _ _ L _ _ _ _ _ _ Sp Hh) as (gamma & delta & H1 & H2).
  exists (skipn (S p) (fst pr) ++ delta). eapply derives_trans; [exact H1|].
  rewrite H2, <- app_assoc. change (A :: delta) with ([A] ++ delta).
  replace (firstn p (fst pr) ++ x :: skipn (S p) (fst pr) ++ delta) with (fst pr ++ delta).
  - apply derives_ctx. eapply derives_prod. eapply (l_valid _ _ _ _ _ _ _ _ L); eauto.
  - rewrite <- (firstn_skipn p (fst pr)) at 1. rewrite <- app_assoc. f_equal. now rewrite (skipn_nth_cons _ _ _ Hn).
Qed.

Lemma keys_entry q row x : nth_error acts q = Some row -> In x (bm_keys row) -> exists a, entry acts q x = Some a.
Proof.
  intros Er Hx. destruct (bm_get x row) as [a|] eqn:Ea.
  - exists a. unfold entry. now rewrite Er.
  - apply bm_get_none in Ea. contradiction.
Qed.

(** Clr: every terminal of the row can come next *)
Lemma key_legal q qs Xs row x : lr1s g start eof p0 sts sfk lookf -> path sts sfk (q :: qs) Xs -> nth_error acts q = Some row ->
  In x (bm_keys row) -> term rules x -> (x = eof /\ derives rules [start] (rev Xs)) \/ exists v, derives rules [start] (rev Xs ++ x :: v).
Proof.
  intros S1 Sp Er Hx Ht. destruct (keys_entry _ _ _ Er Hx) as (a & E).
  apply entry_origin in E as [(A & pr & p & Hh & Hn)|(A & pr & Hl)].
  - right. eapply shift_next; eauto.
  - eapply complete_look; eauto.
Qed.

(** tables whose lookaheads are terminals: the nonterminals of the row as well *)
Lemma key_goto q qs Xs row x : (forall q A pr x, hasl q A pr (length (fst pr)) x -> term rules x) ->
  path sts sfk (q :: qs) Xs -> nth_error acts q = Some row -> In x (bm_keys row) -> nonterm rules x ->
  exists v, derives rules [start] (rev Xs ++ x :: v).
Proof.
  intros Hl Sp Er Hx Hn. destruct (keys_entry _ _ _ Er Hx) as (a & E).
  apply entry_origin in E as [(A & pr & p & Hh & Hp)|(A & pr & H)].
  - eapply shift_next; eauto.
  - apply Hl in H. contradiction.
Qed.
End Keys.

Section Expected.
Context {T : Type} {OT : Ord T}.
Variables (dbg : bool) (start eof : T) (rules : rulemap T) (g : grammar T).
Hypothesis W : wf_rules rules.
Hypothesis Hg : grammar_new dbg start rules eof = Val g.

(** the error only depends on the first unread token *)
Lemma trim_fails k t {M} (maps : reductmap T M) used rest e : makes k dbg g t -> term rules eof ->
  match rest with [] => True | tok :: _ => term rules (tk_ty tok) end -> fails t (used ++ rest) maps rest e ->
  exists rest', fails t (used ++ rest') maps rest' e /\ Forall (term rules) (map tk_ty (used ++ rest')).
Proof.
  intros Hm He Ht Hf. pose proof (fails_used_term _ _ _ _ _ W Hg _ _ _ _ _ _ Hm He Hf) as Hu. destruct rest as [|tok rest].
  - exists []. split; auto. now rewrite app_nil_r.
  - exists [tok]. split.
    + eapply (fails_local _ _ _ _ _ W Hg maps k t Hm (used ++ tok :: rest) (used ++ [tok]) used (tok :: rest) [tok]); eauto.
    + rewrite map_app. apply Forall_app. split; auto. repeat constructor; auto.
Qed.

Lemma expected_gotos k t : makes k dbg g t -> term rules eof -> dbg = true \/ only_terminals t ->
  forall M (maps : reductmap T M) used rest x es, match rest with [] => True | tok :: _ => term rules (tk_ty tok) end ->
  fails t (used ++ rest) maps rest (UnexpectedToken x es) ->
  forall A, nonterm rules A -> In A es -> exists v, derives rules [start] (map tk_ty used ++ A :: v).
Proof.
  intros Hm He Ho M maps used rest x es Ht Hf A HA Hin.
  destruct (trim_fails _ _ _ _ _ _ Hm He Ht Hf) as (rest' & Hf' & Hall).
  destruct (Wp0 _ _ _ _ _ W Hg) as (p0 & Hp0 & _). destruct (makes_lookterm _ _ _ _ _ W Hg _ _ _ He Hm Ho Hp0) as (sfk & lookf & L & Hl).
  pose proof (Wr _ _ _ _ _ Hg) as Er. assert (term (g_rules g) eof) as He' by now rewrite Er.
  apply (fails_runs _ _ _ _ _ W Hg maps _ _ Hm) in Hf' as (d' & R & Hb). rewrite <- Er in *.
  destruct (unexpected_state _ _ _ _ _ _ _ _ L He' maps _ _ _ _ used Hall R) as (q & qs & Xs & row & H1 & H2 & -> & H4 & H5); [now rewrite Hb|].
  destruct (key_goto _ _ _ _ _ _ _ _ L _ _ _ _ _ Hl H1 H2 Hin HA) as (v & Hv).
  exists v. eapply derives_trans; [exact Hv|]. apply derives_app; auto. constructor.
Qed.

Lemma expected_legal t : makes CLR dbg g t -> term rules eof -> productive rules ->
  forall M (maps : reductmap T M) used rest x es, match rest with [] => True | tok :: _ => term rules (tk_ty tok) end ->
  fails t (used ++ rest) maps rest (UnexpectedToken x es) ->
  forall a, term rules a -> In a es -> (a = eof /\ sentence rules start (map tk_ty used)) \/ viable rules start (map tk_ty used ++ [a]).
Proof.
  intros Hm He Hp M maps used rest x es Ht Hf a Ha Hin.
  destruct (trim_fails _ _ _ _ _ _ Hm He Ht Hf) as (rest' & Hf' & Hall).
  destruct (Wp0 _ _ _ _ _ W Hg) as (p0 & Hp0 & _). destruct (makes_made _ _ _ _ _ W Hg _ _ _ Hm Hp0) as (sfk & lookf & X).
  pose proof (m_lr0 _ _ _ _ _ _ _ _ _ _ X) as L. pose proof (m_lr1s _ _ _ _ _ _ _ _ _ _ X eq_refl) as S1.
  pose proof (Wr _ _ _ _ _ Hg) as Er. assert (term (g_rules g) eof) as He' by now rewrite Er.
  apply (fails_runs _ _ _ _ _ W Hg maps _ _ Hm) in Hf' as (d' & R & Hb). rewrite <- Er in *.
  destruct (unexpected_state _ _ _ _ _ _ _ _ L He' maps _ _ _ _ used Hall R) as (q & qs & Xs & row & H1 & H2 & -> & H4 & H5); [now rewrite Hb|].
  destruct (key_legal _ _ _ _ _ _ _ _ L _ _ _ _ _ S1 H1 H2 Hin Ha) as [[-> Hv]|(v & Hv)].
  - left. split; auto. split; auto. eapply derives_trans; eauto.
  - right. destruct (productive_str g v Hp) as (w & Hw1 & Hw2). exists w. split.
    + eapply derives_trans; [exact Hv|]. rewrite <- app_assoc. apply derives_app; auto. simpl. now apply derives_cons.
    + rewrite <- app_assoc. apply Forall_app. split; auto. simpl. now constructor.
Qed.

(** *** C81 *)
Lemma expected_exact t : makes CLR dbg g t -> term rules eof -> dbg = true \/ single_start rules start -> productive rules ->
  forall M (maps : reductmap T M) used rest x es, M -> covers rules maps ->
  match rest with [] => True | tok :: _ => term rules (tk_ty tok) end ->
  fails t (used ++ rest) maps rest (UnexpectedToken x es) ->
  forall a, term rules a -> (In a es <-> (a = eof /\ sentence rules start (map tk_ty used)) \/ viable rules start (map tk_ty used ++ [a])).
Proof.
  intros Hm He Hs Hp M maps used rest x es m0 Hc Ht Hf a Ha. split.
  - eapply expected_legal; eauto.
  - destruct (expected_general _ _ _ _ _ W Hg _ Hm He Hs _ _ _ _ _ _ m0 Hc Ht Hf) as [H1 H2]. intros [[-> H]|(v & H)]; auto.
    rewrite <- app_assoc in H. eapply H1; eauto.
Qed.

Lemma expected_list t : makes CLR dbg g t -> term rules eof -> dbg = true \/ (single_start rules start /\ only_terminals t) -> productive rules ->
  forall M (maps : reductmap T M) used rest x es, M -> covers rules maps ->
  match rest with [] => True | tok :: _ => term rules (tk_ty tok) end ->
  fails t (used ++ rest) maps rest (UnexpectedToken x es) ->
  (forall a, term rules a -> (In a es <-> (a = eof /\ sentence rules start (map tk_ty used)) \/ viable rules start (map tk_ty used ++ [a]))) /\
  (forall A, nonterm rules A -> In A es -> exists v, derives rules [start] (map tk_ty used ++ A :: v)).
Proof.
  intros Hm He Ho Hp M maps used rest x es m0 Hc Ht Hf. split; [eapply expected_exact; eauto; tauto|eapply expected_gotos; eauto; tauto].
Qed.
End Expected.
