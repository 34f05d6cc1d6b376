(** An accepted input has one parse tree, whatever conflicts the table has (C118). *)
From Coq Require Import List Bool Arith Lia.
From Verif Require Import BTree Model Base Spec SpecP GrammarP LR Complete RunFacts Interface Wrap Values Export.
Import ListNotations.

(** reductors that build trees, defined where [maps] is *)
Section Retree.
Context {T : Type} {OT : Ord T} {M : Type}.
Variable rules : rulemap T.
Hypothesis W : wf_rules rules.

Definition retree (maps : reductmap T M) : reductmap T (tree T) :=
  map (fun e => (fst e, map (fun i (toks : list (token T (tree T))) => Node (fst e) i (map tk_item toks)) (seq 0 (length (snd e))))) maps.

Lemma retree_get maps A : bm_get A (retree maps) =
  match bm_get A maps with Some fs => Some (map (fun i (toks : list (token T (tree T))) => Node A i (map tk_item toks)) (seq 0 (length fs))) | None => None end.
Proof.
  induction maps as [|[B fs] maps IH]; [reflexivity|]. cbn [retree map bm_get fst snd]. destruct (eqb_spec A B) as [->|N]; [reflexivity|exact IH].
Qed.

Lemma nth_seq_map {A} (f : nat -> A) n i : nth_error (map f (seq 0 n)) i = if i <? n then Some (f i) else None.
Proof.
  destruct (Nat.ltb_spec i n) as [L|L].
  - apply map_nth_error. rewrite (nth_error_nth' _ 0) by now rewrite seq_length. now rewrite seq_nth.
  - apply nth_error_None. now rewrite map_length, seq_length.
Qed.

Lemma retree_domain maps : same_domain maps (retree maps).
Proof.
  intros A i. split; intros (fs & f & E1 & E2).
  - eexists. eexists. rewrite retree_get, E1. split; [reflexivity|]. rewrite nth_seq_map. destruct (Nat.ltb_spec i (length fs)) as [L|L]; [reflexivity|].
    apply nth_error_None in L. congruence.
  - rewrite retree_get in E1. destruct (bm_get A maps) as [fs'|]; [|discriminate]. injection E1 as <-. rewrite nth_seq_map in E2.
    destruct (Nat.ltb_spec i (length fs')) as [L|L]; [|discriminate]. destruct (nth_error fs' i) as [f'|] eqn:E; [eauto|]. apply nth_error_None in E. lia.
Qed.

Lemma retree_covers maps : covers rules maps -> covers rules (retree maps).
Proof. intros H A i rhs Hp. apply (retree_domain maps A i). eauto. Qed.

Lemma trees_evals maps : covers rules maps ->
  (forall X w t, tree_of rules X w t -> evals rules (retree maps) X (map leaf_tok w) (mkTok t X)) /\
  (forall Xs w ts, trees_of rules Xs w ts -> exists its, evals_seq rules (retree maps) Xs (map leaf_tok w) its /\ map tk_item its = ts).
Proof.
  intros C. apply tree_of_mut.
  - intros t Ht. simpl. apply (evals_tok rules (retree maps) (leaf_tok t)). exact Ht.
  - intros A i rhs w cs Hp Ht (its & He & Hi). destruct (C _ _ _ Hp) as (fs & f & H1 & H2).
    assert (i < length fs) as Li by (apply nth_error_Some; congruence).
    rewrite <- Hi. eapply (evals_rule rules (retree maps) A i rhs _ its _ (fun toks => Node A i (map tk_item toks))); eauto.
    + rewrite retree_get, H1. reflexivity.
    + rewrite nth_seq_map. apply Nat.ltb_lt in Li. now rewrite Li.
  - exists []. split; [constructor|reflexivity].
  - intros X Xs w1 w2 t ts _ H1 _ (its & H2 & H3). exists (mkTok t X :: its). split; [|simpl; congruence].
    rewrite map_app. constructor; auto.
Qed.
End Retree.

Section Unique.
Context {T : Type} {OT : Ord T}.
Variables (dbg : bool) (start eof : T) (rules : rulemap T) (g : grammar T).
Hypothesis W : wf_rules rules.
Hypothesis Hg : grammar_new dbg start rules eof = Val g.

Lemma accepted_unique k t : makes k dbg g t -> k <> LALR \/ carries t -> term rules eof -> start_fresh rules start -> dbg = true \/ single_start rules start ->
  forall M (maps : reductmap T M) input m, covers rules maps -> parses t input maps (POk m) ->
  exists tr, tree_of rules start (map tk_ty input) tr /\ forall tr', tree_of rules start (map tk_ty input) tr' -> tr' = tr.
Proof.
  intros Hm Hk He Hf Hs0 M maps input m Hc Hp.
  assert (single_start rules start) as Hs by (destruct Hs0; eauto using debug_single).
  assert (sentence rules start (map tk_ty input)) as Hsent by (eapply sound; eauto).
  assert (Hu : forall t1 t2, tree_of rules start (map tk_ty input) t1 -> tree_of rules start (map tk_ty input) t2 -> t1 = t2).
  { pose proof Hp as (fuel & Ep). pose proof (verdict_eq t maps (retree maps) input (map leaf_tok (map tk_ty input)) fuel (retree_domain maps)) as V.
    rewrite Ep in V. assert (map tk_ty input = map tk_ty (map leaf_tok (map tk_ty input))) as EI by (rewrite map_map; symmetry; apply map_id).
    specialize (V EI). destruct (parser_parse fuel t (map leaf_tok (map tk_ty input)) (retree maps)) as [[m'|e']| |] eqn:Ev; try contradiction. clear V.
    assert (parses t (map leaf_tok (map tk_ty input)) (retree maps) (POk m')) as Hp' by (exists fuel; exact Ev).
    destruct (Wp0 _ _ _ _ _ W Hg) as (p0 & Hp0 & Hpr & Hz). destruct (makes_made _ _ _ _ _ W Hg _ _ _ Hm Hp0) as (sfk & lookf & X).
    pose proof (m_lr0 _ _ _ _ _ _ _ _ _ _ X) as L. pose proof (m_lr1c _ _ _ _ _ _ _ _ _ _ X Hk He) as C.
    assert (K : forall tr, tree_of rules start (map tk_ty input) tr -> exists its, evals_seq rules (retree maps) (fst p0) (map leaf_tok (map tk_ty input)) its /\ tr = Node start (snd p0) (map tk_item its)).
    { intros tr H. inversion H as [a Ha|A i rhs w' cs Hpi Ht]; subst.
      - exfalso. apply Ha. eapply prod_nonterm; eauto.
      - destruct (one_start _ _ p0 Hpr Hs _ _ Hpi) as [-> ->]. apply (proj2 (trees_evals rules maps Hc)) in Ht as (its & Hev & <-). rewrite Hz. eauto. }
    pose proof (proj1 (grammar_new_inv _ _ _ _ _ Hg)) as Er.
    assert (He' : term (g_rules g) eof) by (rewrite Er; exact He). assert (Hf' : start_fresh (g_rules g) start) by (rewrite Er; exact Hf).
    assert (NS : ~ stuck (dfa_new (map leaf_tok (map tk_ty input)) (t_actions t) (retree maps) eof)).
    { intros (d' & a & b & R). apply (parses_runs _ _ _ _ _ W Hg _ _ _ Hm) in Hp' as (d2 & o & R2 & E2). pose proof (runs_fun _ _ _ R R2) as [= <- <-]. discriminate. }
    intros t1 t2 H1 H2. apply K in H1 as (i1 & E1 & ->). apply K in H2 as (i2 & E2 & ->). rewrite <- Er in E1, E2.
    destruct (run_complete _ _ _ _ _ _ _ _ L C He' _ _ _ Hf' E1) as [(d1 & R1 & I1)|]; [|contradiction].
    destruct (run_complete _ _ _ _ _ _ _ _ L C He' _ _ _ Hf' E2) as [(d2 & R2 & I2)|]; [|contradiction].
    pose proof (runs_fun _ _ _ R1 R2) as [= <-]. rewrite I1 in I2. apply (f_equal (@rev _)) in I2. rewrite !rev_involutive in I2. now subst. }
  destruct Hsent as [D Ft]. destruct (derives_trees _ _ _ D Ft) as (ts & Hts). inversion Hts as [|X Xs w1 w2 t0 ts0 H0 H1 E1 E2]; subst. inversion H1; subst. rewrite app_nil_r in *. exists t0. split; [congruence|]. intros tr Htr. apply Hu; congruence.
Qed.

Lemma ambiguous_conflict k t : makes k dbg g t -> k <> LALR \/ carries t -> term rules eof -> start_fresh rules start -> dbg = true \/ single_start rules start ->
  forall M (maps : reductmap T M) input t1 t2, covers rules maps -> tree_of rules start (map tk_ty input) t1 -> tree_of rules start (map tk_ty input) t2 -> t1 <> t2 ->
  exists a b, parses t input maps (PErr (ConflictErr a b)).
Proof.
  intros Hm Hk He Hf Hs M maps input t1 t2 Hc H1 H2 N. assert (sentence rules start (map tk_ty input)) as Hsent by (split; apply (proj1 (trees_derives rules)) in H1; apply H1).
  destruct (proj1 (complete _ _ _ _ _ W Hg _ _ Hm Hk He Hf Hs) M maps input Hc Hsent) as [(m & Hp)|H]; auto.
  destruct (accepted_unique _ _ Hm Hk He Hf Hs M maps input m Hc Hp) as (tr & _ & U). exfalso. apply N. rewrite (U _ H1), (U _ H2). reflexivity.
Qed.
End Unique.
