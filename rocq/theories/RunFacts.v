(** Run-level consequences: sentences are accepted, errors are justified, consumed input is
    viable, conflict-free tables mean unambiguous grammars (C13, C14, C18, C22-C24, C37). *)
From Coq Require Import List Bool Arith Lia.
From Verif Require Import BTree Model Base Spec SpecP GrammarP FirstFollow Closure ActTab LR Sound CanonLR Complete Locality Prefix Halt.
Import ListNotations.

Section RunFacts.
Context {T : Type} {OT : Ord T}.
Variables (g : grammar T) (start eof : T) (p0 : production T).
Variable sts : list (state T).
Variable sfk : state T -> option nat.
Variable lookf : position T -> res (bset T).
Variable acts : acttable T.
Notation rules := (g_rules g).
Notation lr0 := (lr0 g start eof p0 sts sfk lookf acts).
Notation has := (has sts).
Notation hasl := (hasl sts lookf).
Notation tr := (tr sts sfk).
Notation path := (path sts sfk).
Hypothesis L : lr0.
Hypothesis Heof : term rules eof.
(** the start rule has one production *)
Hypothesis Hone : forall i rhs, prod_at rules start i rhs -> rhs = fst p0.

Section Run.
Context {M : Type}.
Variable maps : reductmap T M.
Hypothesis Hcov : covers rules maps.
Notation sinv := (sinv eof sts sfk acts maps).
Notation stepR := (stepR eof sts sfk acts maps).
Notation terms := (terms g).
Notation init input := (dfa_new input acts maps eof).

Lemma sentence_start w : sentence rules start w -> derives rules (fst p0) w /\ Forall (term rules) w.
Proof.
  intros [Hd Ht]. split; auto. apply derives_single in Hd as [->|(i & rhs & Hp & Hd)].
  - exfalso. inversion Ht as [|? ? H _]. apply H. pose proof (l_valid _ _ _ _ _ _ _ _ L _ _ _ _ (l_start _ _ _ _ _ _ _ _ L)) as [Hp _].
    eapply prod_nonterm; eauto.
  - rewrite <- (Hone _ _ Hp). auto.
Qed.

Lemma sentence_evals input : sentence rules start (map tk_ty input) -> exists its, evals_seq rules maps (fst p0) input its.
Proof. intros H. apply sentence_start in H as [Hd Ht]. eapply derives_evals; eauto. Qed.

Lemma sentence_p0 w : derives rules (fst p0) w -> Forall (term rules) w -> sentence rules start w.
Proof.
  intros Hd Ht. split; auto. eapply derives_trans; [|exact Hd]. eapply derives_prod.
  apply (l_valid _ _ _ _ _ _ _ _ L _ _ _ _ (l_start _ _ _ _ _ _ _ _ L)).
Qed.

(** *** viable prefixes (C23) *)
Lemma steps_vinv input d : steps (init input) d -> Forall (term rules) (map tk_ty input) -> sinv d /\ terms d /\ vinv g maps input d.
Proof.
  intros H Ht.
  assert (G : forall d1 d2, steps d1 d2 -> sinv d1 -> terms d1 -> vinv g maps input d1 -> sinv d2 /\ terms d2 /\ vinv g maps input d2).
  { induction 1 as [|d1 d2 d3 Ef S H1 IH]; auto. intros Hs Hter Hv.
    destruct (step_inv' _ _ _ _ _ _ _ _ L maps Heof _ _ _ Hs Hter S) as [SR H2]. destruct (H2 eq_refl).
    pose proof (terms_look g eof sts sfk acts maps Heof d1 Hs Hter) as Htl.
    apply IH; auto. eapply (step_vinv _ _ _ _ _ _ _ _ L maps) with (d := d1); eauto. }
  apply (G _ _ H); auto.
  - apply dfa_new_sinv.
  - exists []. simpl. split; auto. constructor.
Qed.

(** without assuming that the input consists of terminals: the configuration that last consumed
    a token satisfies the invariants *)
Lemma steps_last_inv input d : steps (init input) d -> exists d0, steps (init input) d0 /\ sinv d0 /\ vinv g maps input d0 /\
  d_buffer d0 = d_buffer d /\
  (d = d0 \/ d_table d = acts /\ exists tok rest, d_buffer d = tok :: rest /\ nonterm rules (tk_ty tok)).
Proof.
  intros H.
  assert (G : forall d1 d2, steps d1 d2 -> forall d0, steps (init input) d0 -> sinv d0 -> vinv g maps input d0 -> d_buffer d0 = d_buffer d1 ->
    (d1 = d0 \/ d_table d1 = acts /\ exists tok rest, d_buffer d1 = tok :: rest /\ nonterm rules (tk_ty tok)) ->
    exists d0, steps (init input) d0 /\ sinv d0 /\ vinv g maps input d0 /\ d_buffer d0 = d_buffer d2 /\
    (d2 = d0 \/ d_table d2 = acts /\ exists tok rest, d_buffer d2 = tok :: rest /\ nonterm rules (tk_ty tok))).
  { induction 1 as [d1|d1 d2 d3 Ef S H1 IH]; intros d0 H0 Hs Hv Hb Hd; [eauto 8|].
    assert (nonterm rules (lookahead d1) -> d_table d1 = acts -> d_buffer d1 <> [] ->
            d_table d2 = acts /\ exists tok rest, d_buffer d1 = tok :: rest /\ d_buffer d2 = tok :: rest /\ nonterm rules (tk_ty tok)) as K.
    { intros Hn Ht Hne. destruct S as (f & S). destruct (nonterm_travel _ _ _ _ _ _ _ _ L _ _ _ _ Ht Hn Hne S) as (E1 & E2 & _).
      split; auto. destruct (d_buffer d1) as [|tok rest] eqn:E; [congruence|]. exists tok, rest. repeat split; auto.
      unfold lookahead in Hn. now rewrite E in Hn. }
    destruct Hd as [->|(Ht & tok & rest & E & Hn)].
    - destruct (nonterm_dec rules (lookahead d0)) as [Hn|Htl].
      + destruct K as (K1 & tok & rest & K2 & K3 & K4); auto.
        * apply (si_table _ _ _ _ _ _ Hs).
        * intros E. unfold lookahead in Hn. rewrite E, (si_eof _ _ _ _ _ _ Hs) in Hn. contradiction.
        * apply (IH d0); auto; [congruence|]. right. eauto.
      + pose proof (step_inv _ _ _ _ _ _ _ _ L maps _ _ _ Hs S) as SR. apply (IH d2); auto.
        * eapply steps_trans; [exact H0|]. eapply steps_cons; eauto. constructor.
        * eapply step_sinv; eauto.
        * eapply step_vinv; [exact L| | | |]; eauto.
    - destruct K as (K1 & tok' & rest' & K2 & K3 & K4); auto.
      + unfold lookahead. now rewrite E.
      + congruence.
      + apply (IH d0); auto; [congruence|]. right. eauto. }
  apply (G _ _ H (init input)); auto.
  - constructor.
  - apply dfa_new_sinv.
  - exists []. simpl. split; auto. constructor.
Qed.

Lemma steps_viable input d used : productive rules ->
  steps (init input) d -> input = used ++ d_buffer d -> viable rules start (map tk_ty used) /\ Forall (term rules) (map tk_ty used).
Proof.
  intros Hp S Eu. destruct (steps_last_inv _ _ S) as (d0 & _ & Hs & (used' & Eu' & Hev) & Eb & _). rewrite Eb in Eu'.
  assert (used' = used) as -> by (apply (app_inv_tail (d_buffer d)); congruence). clear Eu'.
  destruct (path_viable _ _ _ _ _ _ _ _ L _ _ (si_path _ _ _ _ _ _ Hs)) as (v & Hv).
  destruct (productive_str g v Hp) as (w & Hw1 & Hw2).
  apply (proj2 (evals_derives rules maps)) in Hev as [Hd Hter]. split; auto. exists w. split.
  - eapply derives_trans; [exact Hv|]. now apply derives_app.
  - now apply Forall_app.
Qed.

Lemma steps_used_term input d used : steps (init input) d -> input = used ++ d_buffer d -> Forall (term rules) (map tk_ty used).
Proof.
  intros S Eu. destruct (steps_last_inv _ _ S) as (d0 & _ & Hs & (used' & Eu' & Hev) & Eb & _). rewrite Eb in Eu'.
  assert (used' = used) as -> by (apply (app_inv_tail (d_buffer d)); congruence).
  apply (proj2 (evals_derives rules maps)) in Hev. apply Hev.
Qed.

Section Compl.
Hypothesis C : lr1c g start eof p0 sts sfk lookf.

(** *** acceptance *)
Lemma sentence_accepted input : sentence rules start (map tk_ty input) ->
  (exists d', runs (init input) (d', Ok)) \/ halted g start (init input).
Proof.
  intros H. destruct (sentence_evals _ H) as (its & Hev).
  destruct (run_complete' _ _ _ _ _ _ _ _ L C Heof maps _ _ Hev) as [(d' & R & _)|H']; eauto.
Qed.

Lemma clean_accepted input : start_fresh rules start -> conflicts acts = [] -> sentence rules start (map tk_ty input) -> exists d', runs (init input) (d', Ok).
Proof.
  intros Hf Hc H. destruct (sentence_accepted _ H) as [H'|H']; auto. apply (fresh_halted g start _ Hf) in H'. exfalso. revert H'.
  eapply clean_not_stuck; eauto.
  - apply dfa_new_sinv.
  - apply H.
Qed.

(** *** errors are no false alarms (C22) *)
Lemma no_false_alarm input d' t es used : runs (init input) (d', Err (UnexpectedToken t es)) -> input = used ++ d_buffer d' ->
  match d_buffer d' with
  | [] => ~ sentence rules start (map tk_ty used)
  | tok :: _ => forall v, ~ sentence rules start (map tk_ty used ++ tk_ty tok :: v)
  end.
Proof.
  intros R Eu. destruct (d_buffer d') as [|tok rest] eqn:Eb.
  - intros H. rewrite app_nil_r in Eu. subst used.
    destruct (sentence_accepted _ H) as [(d2 & R2)|[(d2 & a & b & R2)|[_ (d2 & [R2|R2])]]]; pose proof (runs_fun _ _ _ R R2); discriminate.
  - intros v H. set (y := tok :: map (mkTok (tk_item tok)) v).
    assert (map tk_ty (used ++ y) = map tk_ty used ++ tk_ty tok :: v) as Ety.
    { rewrite map_app. unfold y. simpl. do 2 f_equal. rewrite map_map. simpl. apply map_id. }
    rewrite <- Ety in H. pose proof (runs_local (init input) d' _ used y R) as R'.
    assert (runs (init (used ++ y)) (setb d' y, Err (UnexpectedToken t es))) as R1.
    { apply R'; [now rewrite Eb|rewrite Eb; reflexivity]. }
    destruct (sentence_accepted _ H) as [(d2 & R2)|[(d2 & a & b & R2)|[_ (d2 & [R2|R2])]]]; pose proof (runs_fun _ _ _ R1 R2); discriminate.
Qed.

Lemma steps_last (d d' : dfa T M) : steps d d' -> d = d' \/ exists d1, steps d d1 /\ d_finished d1 = false /\ stepsto d1 (d', Ok).
Proof.
  induction 1 as [|d d1 d2 Ef S H [->|(d3 & H1 & H2 & H3)]]; auto.
  - right. exists d. split; [constructor|]. auto.
  - right. exists d3. split; auto. eapply steps_cons; eauto.
Qed.

Section Canonical.
Hypothesis S1 : lr1s g start eof p0 sts sfk lookf.

(** *** reductions only on legal lookaheads (C37) *)
Lemma reduce_viable input d used A pr row : productive rules -> Forall (term rules) (map tk_ty input) ->
  steps (init input) d -> input = used ++ d_buffer d ->
  nth_error acts (d_top d) = Some row -> bm_get (lookahead d) row = Some (Reduce A pr) ->
  (lookahead d = eof /\ sentence rules start (map tk_ty used)) \/ viable rules start (map tk_ty used ++ [lookahead d]).
Proof.
  intros Hp Ht S Eu Er Ea. destruct (steps_vinv _ _ S Ht) as (Hs & Hter & used' & Eu' & Hev).
  assert (used' = used) as -> by (apply (app_inv_tail (d_buffer d)); congruence). clear Eu'.
  pose proof (terms_look g eof sts sfk acts maps Heof d Hs Hter) as Htl.
  assert (entry acts (d_top d) (lookahead d) = Some (Reduce A pr)) as E by (unfold entry; now rewrite Er).
  apply (entry_reduce _ _ _ _ _ _ _ _ L) in E as [_ Hl].
  pose proof (si_path _ _ _ _ _ _ Hs) as Sp. pose proof (si_top _ _ _ _ _ _ Hs) as Stop.
  destruct (d_states d) as [|q0 qs] eqn:Eqs; [discriminate|]. simpl in Stop. injection Stop as ->.
  apply (proj2 (evals_derives rules maps)) in Hev as [Hd Hter'].
  destruct (complete_look _ _ _ _ _ _ _ _ L S1 _ _ _ _ _ _ Htl Sp Hl) as [[El Hv]|(v & Hv)].
  - left. split; auto. split; auto. eapply derives_trans; eauto.
  - right. destruct (productive_str g v Hp) as (w & Hw1 & Hw2). exists w. split.
    + eapply derives_trans; [exact Hv|]. rewrite <- app_assoc. apply derives_app; auto. simpl. now apply derives_cons.
    + rewrite <- app_assoc. apply Forall_app. split; auto. simpl. now constructor.
Qed.

(** *** UnexpectedToken only arises right after a shift, or at the very beginning *)
Lemma unexpected_after_shift input d : Forall (term rules) (map tk_ty input) -> steps (init input) d -> d_finished d = false ->
  entry acts (d_top d) (lookahead d) = None ->
  d = init input \/ exists d1, steps (init input) d1 /\ d_finished d1 = false /\ stepsto d1 (d, Ok) /\ d_buffer d1 <> d_buffer d.
Proof.
  intros Ht S Ef En. destruct (steps_last _ _ S) as [E|(d1 & H1 & H2 & H3)]; auto. right. exists d1. repeat split; auto.
  destruct (steps_vinv _ _ H1 Ht) as (Hs & Hter & _).
  pose proof (terms_look g eof sts sfk acts maps Heof d1 Hs Hter) as Htl.
  destruct (step_inv' _ _ _ _ _ _ _ _ L maps Heof _ _ _ Hs Hter H3) as [SR _].
  inversion SR as [tok rest m Eb E|m Eb E|m E|E Eb|E Eb|a b E|m Em E|A pr q m fs f E Efs Ef' Eq Et Eg|A pr q a b fs f E Efs Ef' Eq Eg];
    subst; simpl.
  - rewrite Eb. intros E1. apply (f_equal (@length _)) in E1. simpl in E1. lia.
  - apply (entry_goto _ _ _ _ _ _ _ _ L) in E as [E _]. contradiction.
  - simpl in Ef. discriminate.
  - exfalso. apply (entry_reduce _ _ _ _ _ _ _ _ L) in E as [HA Hl].
    pose proof (si_path _ _ _ _ _ _ Hs) as Sp. pose proof (si_top _ _ _ _ _ _ Hs) as Stop.
    destruct (d_states d1) as [|q0 qs] eqn:Eqs; [discriminate|]. simpl in Stop. injection Stop as ->.
    destruct (path_hasl _ _ _ _ _ _ _ _ L S1 _ _ _ _ _ _ _ Sp Hl) as (q2 & Hq2 & Hl2). rewrite Eq in Hq2. injection Hq2 as <-.
    eapply (reduced_entry _ _ _ _ _ _ _ _ L C q A pr (lookahead d1) m); eauto.
    apply (s_just _ _ _ _ _ _ _ S1); auto.
Qed.

(** *** the expected list misses no legal continuation (C24) *)
Lemma expected_complete input d' t es used : Forall (term rules) (map tk_ty input) ->
  runs (init input) (d', Err (UnexpectedToken t es)) -> input = used ++ d_buffer d' ->
  (forall a v, sentence rules start (map tk_ty used ++ a :: v) -> M -> In a es) /\
  (sentence rules start (map tk_ty used) -> In eof es).
Proof.
  intros Ht R Eu. apply runs_steps in R as (d1 & S & R & [[_ E]|(d2 & e' & Ef & S2 & [= <- <-])]); [discriminate|].
  destruct (steps_vinv _ _ S Ht) as (Hs & Hter & _).
  destruct (step_inv' _ _ _ _ _ _ _ _ L maps Heof _ _ _ Hs Hter S2) as [SR _].
  inversion SR as [| | | | | |m Em En Ed Et| |]; subst d' t es.
  assert (K : forall y, sentence rules start (map tk_ty (used ++ y)) -> bm_get (lookahead (setb d1 y)) m <> None).
  { intros y Hy En'.
    assert (steps (init (used ++ y)) (setb d1 y)) as Sy.
    { destruct (unexpected_after_shift _ _ Ht S Ef) as [E|(d0 & H1 & H2 & H3 & H4)].
      - unfold entry. now rewrite Em.
      - rewrite E in *. simpl in Eu. assert (used = []) as ->.
        { apply (app_inv_tail input). simpl. congruence. }
        simpl. constructor.
      - pose proof (steps_local_shift _ _ _ H1 H2 H3 H4 used y Eu). exact H. }
    assert (Forall (term rules) (map tk_ty (used ++ y))) as Hty by apply Hy.
    destruct (steps_vinv _ _ Sy Hty) as (Hsy & _ & _).
    assert (runs (init (used ++ y)) (setb d1 y, Err (UnexpectedToken (lookahead (setb d1 y)) (bm_keys m)))) as Ry.
    { eapply steps_runs; [exact Sy|]. apply runs_err; auto. eapply step_of; eauto. apply sr_unexpected; auto. }
    destruct (sentence_accepted _ Hy) as [(d2 & R2)|[(d2 & a & b & R2)|[_ (d2 & [R2|R2])]]]; pose proof (runs_fun _ _ _ Ry R2); discriminate. }
  assert (K2 : forall a, bm_get a m <> None -> In a (bm_keys m)).
  { intros a Ha. destruct (bm_get a m) as [x|] eqn:Ex; [|congruence]. apply bm_get_in in Ex. apply in_map_iff. exists (a, x). auto. }
  split.
  - intros a v Hv x0. apply K2. apply (K (map (mkTok x0) (a :: v))). rewrite map_app, map_map. simpl. now rewrite map_id.
  - intros Hv. apply K2. pose proof (K []) as K3. rewrite app_nil_r in K3. specialize (K3 Hv).
    unfold lookahead in K3. simpl in K3. now rewrite (si_eof _ _ _ _ _ _ Hs) in K3.
Qed.
End Canonical.
End Compl.
End Run.

End RunFacts.

(** ** reductor maps built from the rules *)
Section Maps.
Context {T : Type} {OT : Ord T}.
Variable rules : rulemap T.
Hypothesis W : wf_rules rules.

Lemma ruled_get {B} (F : rule T -> B) A r : bm_get A rules = Some r ->
  bm_get A (bm_of_list (map (fun r => (r_name r, F r)) (bm_values rules))) = Some (F r).
Proof.
  intros Hr. destruct W as [Ws Wn].
  assert (In A (bm_keys (bm_of_list (map (fun r => (r_name r, F r)) (bm_values rules))))) as Hin.
  { apply bm_of_list_mem. rewrite map_map. simpl. apply in_map_iff. exists r. split; [now apply Wn|].
    unfold bm_values. apply in_map_iff. exists (A, r). split; auto. now apply bm_get_in. }
  apply in_map_iff in Hin as ([k v] & Ek & Hin). simpl in Ek. subst k.
  apply bm_in_get in Hin; [|apply bm_of_list_sorted]. pose proof Hin as Hg. apply bm_of_list_get in Hin.
  apply in_map_iff in Hin as (r' & [= E <-] & Hin). rewrite Hg. do 2 f_equal.
  unfold bm_values in Hin. apply in_map_iff in Hin as ([k r2] & E2 & Hin). simpl in E2. subst r2.
  apply bm_in_get in Hin; auto. destruct (Wn _ _ Hin) as [E3 _]. congruence.
Qed.

Lemma ruled_covers {M} (F : rule T -> production T -> reductfn T M) :
  covers rules (bm_of_list (map (fun r => (r_name r, map (F r) (r_prods r))) (bm_values rules))).
Proof.
  intros A i rhs (r & k & Hr & Hi). exists (map (F r) (r_prods r)), (F r (rhs, k)). split.
  - now apply (ruled_get (fun r => map (F r) (r_prods r))).
  - now apply map_nth_error.
Qed.

Lemma transparent_covers {M} (g : grammar T) (f : reductfn T M) : g_rules g = rules -> covers rules (transparent g f).
Proof. intros E. unfold transparent. rewrite E. apply (ruled_covers (fun _ _ => f)). Qed.

(** *** the tree-building reductors *)
Definition treemap : reductmap T (tree T) :=
  bm_of_list (map (fun r => (r_name r, map (fun (pr : production T) (toks : list (token T (tree T))) =>
     Node (r_name r) (snd pr) (map tk_item toks)) (r_prods r))) (bm_values rules)).

Lemma treemap_get A i rhs : prod_at rules A i rhs -> exists fs (f : reductfn T (tree T)), bm_get A treemap = Some fs /\ nth_error fs i = Some f /\ forall toks, f toks = Node A i (map tk_item toks).
Proof.
  intros (r & k & Hr & Hi). 
  exists (map (fun (pr : production T) (toks : list (token T (tree T))) => Node (r_name r) (snd pr) (map tk_item toks)) (r_prods r)).
  exists (fun toks => Node (r_name r) k (map tk_item toks)). split; [|split].
  - apply (ruled_get (fun r => map (fun (pr : production T) (toks : list (token T (tree T))) => Node (r_name r) (snd pr) (map tk_item toks)) (r_prods r))); auto.
  - rewrite (map_nth_error _ _ _ Hi). reflexivity.
  - intros toks. destruct W as [_ Wn]. destruct (Wn _ _ Hr) as [-> (l & El)]. rewrite El in Hi.
    unfold production in Hi. rewrite enum_from_nth in Hi. destruct (nth_error l i); [|discriminate]. injection Hi as _ <-. reflexivity.
Qed.

Lemma treemap_covers : covers rules treemap.
Proof. intros A i rhs H. destruct (treemap_get _ _ _ H) as (fs & f & H1 & H2 & _). eauto. Qed.

Definition leaf_tok (t : T) : token T (tree T) := mkTok (Leaf t) t.

Lemma trees_eval :
  (forall X w t, tree_of rules X w t -> evals rules treemap X (map leaf_tok w) (mkTok t X)) /\
  (forall Xs w ts, trees_of rules Xs w ts -> exists its, evals_seq rules treemap Xs (map leaf_tok w) its /\ map tk_item its = ts).
Proof.
  apply tree_of_mut.
  - intros t Ht. simpl. apply (evals_tok rules treemap (leaf_tok t)). exact Ht.
  - intros A i rhs w cs Hp Ht (its & He & Hi). destruct (treemap_get _ _ _ Hp) as (fs & f & H1 & H2 & H3).
    rewrite <- Hi, <- H3. eapply evals_rule; eauto.
  - exists []. split; [constructor|reflexivity].
  - intros X Xs w1 w2 t ts _ H1 _ (its & H2 & H3). exists (mkTok t X :: its). split; [|simpl; congruence].
    rewrite map_app. constructor; auto.
Qed.
End Maps.

Section Unamb.
Context {T : Type} {OT : Ord T}.
Variables (g : grammar T) (start eof : T) (p0 : production T).
Variable sts : list (state T).
Variable sfk : state T -> option nat.
Variable lookf : position T -> res (bset T).
Variable acts : acttable T.
Notation rules := (g_rules g).
Hypothesis L : lr0 g start eof p0 sts sfk lookf acts.
Hypothesis Hfresh : start_fresh rules start.
Hypothesis Heof : term rules eof.
Hypothesis Hone : forall i rhs, prod_at rules start i rhs -> i = snd p0 /\ rhs = fst p0.
Hypothesis C : lr1c g start eof p0 sts sfk lookf.

Lemma clean_unambiguous w t1 t2 : conflicts acts = [] -> tree_of rules start w t1 -> tree_of rules start w t2 -> t1 = t2.
Proof.
  intros Hc H1 H2. pose proof (l_wf _ _ _ _ _ _ _ _ L) as W.
  assert (K : forall t, tree_of rules start w t -> exists its, evals_seq rules (treemap rules) (fst p0) (map leaf_tok w) its /\ t = Node start (snd p0) (map tk_item its)).
  { intros t H. inversion H as [a Ha|A i rhs w' cs Hp Ht]; subst.
    - exfalso. apply Ha. pose proof (l_valid _ _ _ _ _ _ _ _ L _ _ _ _ (l_start _ _ _ _ _ _ _ _ L)) as [Hp _]. eapply prod_nonterm; eauto.
    - destruct (Hone _ _ Hp) as [-> ->]. apply (proj2 (trees_eval rules W)) in Ht as (its & He & <-). eauto. }
  apply K in H1 as (i1 & E1 & ->). apply K in H2 as (i2 & E2 & ->).
  assert (~ stuck (dfa_new (map leaf_tok w) acts (treemap rules) eof)) as Hns.
  { eapply clean_not_stuck; eauto using treemap_covers, dfa_new_sinv.
    unfold terms. simpl. apply (proj2 (evals_derives rules (treemap rules))) in E1. apply E1. }
  destruct (run_complete _ _ _ _ _ _ _ _ L C Heof _ _ _ Hfresh E1) as [(d1 & R1 & I1)|]; [|contradiction].
  destruct (run_complete _ _ _ _ _ _ _ _ L C Heof _ _ _ Hfresh E2) as [(d2 & R2 & I2)|]; [|contradiction].
  pose proof (runs_fun _ _ _ R1 R2) as [= <-]. rewrite I1 in I2. apply (f_equal (@rev _)) in I2. rewrite !rev_involutive in I2. now subst.
Qed.
End Unamb.
