(** wop's [main]. *)
From Coq Require Import List Bool Arith Lia String Permutation.
From Verif Require Import BTree Model Strings Wop WopSpec WopP WopProc WopDump WopFront Base Spec SpecP GrammarP ActTab LR Sound Halt Interface Wrap Mono Check Export Examples Bundled RunFacts WopParse WopExport WopText.
Import ListNotations.
Local Open Scope list_scope.

(** the values on the stack when a run ends *)
Section V.
Context {T : Type} {OT : Ord T}.
Variables (g : grammar T) (start eof : T) (p0 : production T) (sts : list (state T)) (sfk : state T -> option nat) (lookf : position T -> res (bset T)) (acts : acttable T).
Hypothesis L : lr0 g start eof p0 sts sfk lookf acts.
Hypothesis Heof : term (g_rules g) eof.
Hypothesis Hclean : conflicts acts = [].
Context {M : Type}.
Variable maps : reductmap T M.
Lemma no_conflict_entry q x a b : entry acts q x <> Some (Conflict a b).
Proof.
  intros E. unfold entry in E. destruct (nth_error acts q) as [row|] eqn:Er; [|discriminate].
  assert (In (Conflict a b) (conflicts acts)) as H; [|now rewrite Hclean in H].
  apply in_conflicts. split; [reflexivity|]. exists q, row, x. split; auto. now apply bm_get_in.
Qed.
Lemma run_vinv input d' o : Forall (term (g_rules g)) (map tk_ty input) -> runs (dfa_new input acts maps eof) (d', o) -> vinv g maps input d'.
Proof.
  intros Ht R. apply runs_steps in R as (d1 & St & R & [[_ E]|(d2 & e & Ef & S2 & E)]); injection E as -> ->.
  - now apply (steps_vinv _ _ _ _ _ _ _ _ L Heof maps _ _ St Ht).
  - destruct (steps_vinv _ _ _ _ _ _ _ _ L Heof maps _ _ St Ht) as (Hs & Hter & Hv).
    destruct (step_inv' _ _ _ _ _ _ _ _ L maps Heof _ _ _ Hs Hter S2) as [SR _].
    inversion SR; subst; auto; exfalso; eapply no_conflict_entry; eauto.
Qed.
End V.

Lemma run_items dbg g t toks d' o : wop_grammar dbg = Val g -> makes SLR dbg g t -> conflicts (t_actions t) = [] -> Forall (term rules) (map tk_ty toks) ->
  runs (dfa_new toks (t_actions t) wop_maps Eof) (d', o) -> exists used, toks = used ++ d_buffer d' /\ evals_seq rules wop_maps (rev (map tk_ty (d_items d'))) used (rev (d_items d')).
Proof.
  intros Hg Hm Hc Ht R. destruct (Wp0 dbg EntryPoint Eof rules g wop_wf Hg) as (p0 & Hp0 & Hp & _).
  destruct (makes_made dbg EntryPoint Eof rules g wop_wf Hg SLR t p0 Hm Hp0) as (sfk & lookf & X).
  pose proof (m_lr0 _ _ _ _ _ _ _ _ _ _ X) as L. pose proof (Wr _ _ _ _ _ Hg) as Erl.
  rewrite <- Erl. apply (run_vinv _ _ _ _ _ _ _ _ L) with (o := o); try (rewrite Erl); auto using wop_eof, wop_covers.
Qed.

#[local] Opaque wop_maps.
Section M.
Variable text : span -> string.
Variable order : prod_build -> list prod_build -> list span -> list span.
Variable iter : list (string * list prod_build) -> list (string * list prod_build).
Variable dbg : bool.

(** [main] in terms of the parser's run *)
Lemma main_run g t toks d' o : wop_grammar dbg = Val g -> makes SLR dbg g t -> runs (dfa_new toks (t_actions t) wop_maps Eof) (d', o) ->
  exists F, forall fuel, F <= fuel -> wop_main text order iter dbg fuel toks =
    (do _ <- mapM tk_item (d_items d'); do it <- expect P_index (nth_error (rev (d_items d')) 0); do m <- tk_item it;
     do b <- process text order fuel builder_new (mkTok m (tk_ty it)); do s <- write_out text b (iter (b_rules b)); Val (o, s)).
Proof.
  intros Hg Hm (n1 & E1). pose proof Hm as (n2 & E2). exists (n1 + n2). intros fuel L. unfold wop_main. rewrite Hg. cbn [bind].
  rewrite (rle_val _ _ _ (slr_new_rle dbg n2 fuel g ltac:(lia)) E2). cbn [bind].
  rewrite (makes_dfa dbg EntryPoint Eof rules g wop_wf Hg wop_maps SLR t Hm). cbn [bind].
  rewrite (rle_val _ _ _ (start_rle n1 fuel _ ltac:(lia)) E1). reflexivity.
Qed.
Lemma wrap_items gs : mapM tk_item (map wrap gs) = Val (map tk_item gs).
Proof. induction gs as [|g gs IH]; [reflexivity|]. cbn [map mapM]. rewrite IH. reflexivity. Qed.

Hypothesis Ho : iterates order.

(** the builder read from a tree *)
Lemma reads_eval ts gr : evals rules wop_maps Program (lex ts) (wrap gr) ->
  exists F, forall fuel, F <= fuel -> from_tokens text order dbg fuel (lex ts) = (do b <- process text order fuel builder_new (mkTok (tk_item gr) (tk_ty (wrap gr))); Val (inl b)).
Proof.
  intros He. destruct (wop_clean dbg) as (g & t & Hg & Hm & Hc).
  assert (Hps : parses t (lex ts) wop_maps (POk (Val (tk_item gr)))).
  { apply (exact_value dbg EntryPoint Eof rules g wop_wf Hg SLR t Hm); auto using wop_eof, wop_fresh; [left; discriminate|].
    exists [Program], [], (wrap gr). split; [eapply wop_prod; [simpl; tauto|reflexivity]|]. split; [|reflexivity].
    rewrite <- (app_nil_r (lex ts)). constructor; [exact He|constructor]. }
  apply (parses_runs dbg EntryPoint Eof rules g wop_wf Hg wop_maps SLR t Hm) in Hps. destruct Hps as (d' & o & R & Er).
  destruct o; [|discriminate]. destruct (start_items dbg g t _ d' Hg Hm R) as (it & Hev & Hi). rewrite Hi in Er. injection Er as Em.
  destruct (from_tokens_run text order dbg g t _ _ _ Hg Hm R) as (F0 & EF). exists F0. intros fuel L. rewrite (EF fuel L), Hi. cbn [rev app nth_error expect bind]. rewrite <- Em. cbn [bind].
  apply (proj1 (evals_ty rules wop_maps)) in Hev. apply (proj1 (evals_ty rules wop_maps)) in He. rewrite Hev, He. reflexivity.
Qed.

(** what is at the bottom of the stack when a run ends *)
Lemma main_bottom ts : Forall (fun x => term rules (fst x)) ts -> forall g t d' o, wop_grammar dbg = Val g -> makes SLR dbg g t -> conflicts (t_actions t) = [] ->
  runs (dfa_new (lex ts) (t_actions t) wop_maps Eof) (d', o) ->
  (d_items d' = [] /\ exists F, forall fuel, F <= fuel -> wop_main text order iter dbg fuel (lex ts) = Panic P_index) \/
  (exists p, (p = P_unlisted \/ p = P_assert) /\ exists F, forall fuel, F <= fuel -> wop_main text order iter dbg fuel (lex ts) = Panic p) \/
  exists ts1 ts2 ds b, ts = ts1 ++ ts2 /\ file_toks ts1 ds /\ valid text ds /\ reads text order dbg ts1 (Val (inl b)) /\
    exists F, forall fuel, F <= fuel -> wop_main text order iter dbg fuel (lex ts) = (do s <- write_out text b (iter (b_rules b)); Val (o, s)).
Proof.
  intros Ht g t d' o Hg Hm Hc R.
  assert (Hterm : Forall (term rules) (map tk_ty (lex ts))) by (rewrite lex_tys, Forall_map; exact Ht).
  destruct (run_items dbg g t _ d' o Hg Hm Hc Hterm R) as (used & Eu & Hev). destruct (main_run g t _ d' o Hg Hm R) as (F0 & E0).
  symmetry in Eu. apply lex_app_inv in Eu as (tu & tr & -> & -> & _).
  destruct (proj2 ev_sem _ _ _ Hev tu eq_refl) as (gs & Egs & _).
  assert (Ei : d_items d' = map wrap (rev gs)) by (rewrite map_rev, <- Egs, rev_involutive; reflexivity).
  rewrite Ei, wrap_items, <- map_rev, rev_involutive in E0. cbn [bind] in E0.
  rewrite Ei in Hev. clear R Hm Hc Egs. destruct gs as [|gr gs]; [left; split; [exact Ei|exists F0; exact E0]|right].
  rewrite map_map, <- !map_rev, rev_involutive in Hev. cbn [map] in Hev. inversion Hev as [|X Xs w1 w2 it its He _ EX Ew Ei']. subst it its X Xs. clear Hev.
  apply lex_app_inv in Ew as (t1 & t2 & -> & -> & _). cbn [map nth_error expect bind] in E0.
  assert (Ew : tk_item (wrap gr) = Val (tk_item gr)) by reflexivity. rewrite Ew in E0. cbn [bind] in E0. clear Ew.
  destruct (proj1 ev_sem _ _ _ He t1 eq_refl) as (gr' & Egr & Hs). assert (gr' = gr) as -> by (destruct gr, gr'; unfold wrap in Egr; simpl in Egr; congruence). clear Egr.
  change (tk_ty (wrap gr)) with (tk_ty gr) in *.
  assert (C : (tk_ty gr = Program /\ exists ds, rep_file gr ds /\ file_toks t1 ds) \/ forall l, g_ast gr <> AProgram l).
  { destruct Hs as [_ Hs]. destruct (tk_ty gr); cbv beta iota in Hs; try (right; intros l El; rewrite El in Hs; destruct Hs; discriminate).
    - left. split; auto.
    - right. intros l El. destruct Hs as (l' & vs & Hs & _). congruence.
    - right. intros l El. destruct Hs as (d & Hs & _). inversion Hs; congruence.
    - right. intros l El. destruct Hs as (d & Hs & _). inversion Hs; congruence.
    - right. intros l El. destruct Hs as (l' & vs & Hs & _). congruence.
    - right. intros l El. destruct Hs as (d & Hs & _). inversion Hs; congruence.
    - right. intros l El. destruct Hs as (d & Hs & _). inversion Hs; congruence. }
  destruct C as [(Ety & ds & Hrep & Hf)|N].
  - assert (Hr' : rep_file (mkTok (tk_item gr) (tk_ty gr)) ds) by (destruct Hrep as (l & E & Fl); exists l; split; auto).
    destruct (process_spec text order Ho _ _ Hr') as [H1 H2]. destruct (valid_dec text ds) as [Hv|Hv].
    + right. destruct (H1 Hv) as (b & F' & Eb & _). rewrite Ety in He. destruct (reads_eval t1 gr He) as (F & EF).
      exists t1, (t2 ++ tr), ds, b. split; [now rewrite app_assoc|]. split; auto. split; auto. split.
      * exists (F + F'). intros fuel L. unfold lex in EF. rewrite EF by lia. change (tk_ty (wrap gr)) with (tk_ty gr). rewrite Eb by lia. reflexivity.
      * exists (F0 + F'). intros fuel L. rewrite E0 by lia. rewrite Eb by lia. reflexivity.
    + left. exists P_assert. split; auto. destruct (H2 Hv) as (F & Eb). exists (F0 + F). intros fuel L. rewrite E0 by lia. rewrite Eb by lia. reflexivity.
  - left. exists P_unlisted. split; auto. exists F0. intros fuel L. rewrite (E0 fuel L). unfold process. change (g_ast (mkTok (tk_item gr) (tk_ty gr))) with (g_ast gr).
    destruct (g_ast gr); try reflexivity. now edestruct N.
Qed.

(** on a grammar file *)
Theorem main_file ts ds : file_toks ts ds ->
  (valid text ds -> exists b, reads text order dbg ts (Val (inl b)) /\
     exists F, forall fuel, F <= fuel -> wop_main text order iter dbg fuel (lex ts) = (do s <- write_out text b (iter (b_rules b)); Val (Ok, s))) /\
  (~ valid text ds -> exists F, forall fuel, F <= fuel -> wop_main text order iter dbg fuel (lex ts) = Panic P_assert).
Proof.
  intros Hf. destruct (file_ev ts ds Hf) as (gr & He & Hr).
  destruct (wop_clean dbg) as (g & t & Hg & Hm & Hc).
  assert (Hps : parses t (lex ts) wop_maps (POk (Val (tk_item gr)))).
  { apply (exact_value dbg EntryPoint Eof rules g wop_wf Hg SLR t Hm); auto using wop_eof, wop_fresh; [left; discriminate|].
    exists [Program], [], (wrap gr). split; [eapply wop_prod; [simpl; tauto|reflexivity]|]. split; [|reflexivity].
    rewrite <- (app_nil_r (lex ts)). constructor; [exact He|constructor]. }
  apply (parses_runs dbg EntryPoint Eof rules g wop_wf Hg wop_maps SLR t Hm) in Hps. destruct Hps as (d' & o & R & Er).
  destruct o; [|discriminate]. destruct (start_items dbg g t _ d' Hg Hm R) as (it & Hev & Hi). rewrite Hi in Er. injection Er as Em.
  destruct (main_run g t _ _ _ Hg Hm R) as (F0 & EF). rewrite Hi in EF. cbn [mapM rev app nth_error expect bind] in EF. rewrite <- Em in EF. cbn [bind] in EF.
  apply (proj1 (evals_ty rules wop_maps)) in Hev. pose proof (proj1 (evals_ty rules wop_maps) _ _ _ He) as Hty.
  assert (Hr' : rep_file (mkTok (tk_item gr) (tk_ty it)) ds). { destruct Hr as (l & E & Fl). exists l. split; auto. }
  destruct (process_spec text order Ho _ _ Hr') as [H1 H2]. split; intros Hv.
  - destruct (H1 Hv) as (b & F & Eb & _). exists b. split.
    + destruct (reads_eval ts gr He) as (F1 & E1). exists (F1 + F). intros fuel L. unfold lex in E1. rewrite E1 by lia. rewrite Hty, <- Hev, Eb by lia. reflexivity.
    + exists (F0 + F). intros fuel L. rewrite EF by lia. rewrite Eb by lia. reflexivity.
  - destruct (H2 Hv) as (F & Eb). exists (F0 + F). intros fuel L. rewrite EF by lia. rewrite Eb by lia. reflexivity.
Qed.

(** on anything else *)
Theorem main_error ts : Forall (fun x => term rules (fst x)) ts -> (forall ds, ~ file_toks ts ds) ->
  exists e, reads text order dbg ts (Val (inr e)) /\
  ((exists p, (p = P_index \/ p = P_unlisted \/ p = P_assert) /\ exists F, forall fuel, F <= fuel -> wop_main text order iter dbg fuel (lex ts) = Panic p) \/
   exists ts1 ts2 ds b, ts = ts1 ++ ts2 /\ file_toks ts1 ds /\ valid text ds /\ reads text order dbg ts1 (Val (inl b)) /\
     exists F, forall fuel, F <= fuel -> wop_main text order iter dbg fuel (lex ts) = (do s <- write_out text b (iter (b_rules b)); Val (Err e, s))).
Proof.
  intros Ht Hn. destruct (reads_decides text order dbg Ho ts Ht) as [(ds & Hf & _)|[_ (e & He)]]; [now destruct (Hn ds)|]. exists e. split; auto.
  destruct (wop_exact SLR dbg) as (g & t & Hg & Hm & _ & _ & L1 & L2).
  assert (Hterm : Forall (term rules) (map tk_ty (lex ts))) by (rewrite lex_tys, Forall_map; exact Ht).
  destruct (wop_clean dbg) as (g1 & t1 & Hg1 & Hm1 & Hc). 
  assert (g1 = g) as -> by (unfold wop_grammar in Hg1, Hg; congruence).
  assert (t1 = t) as -> by (destruct Hm as (n & E), Hm1 as (n1 & E1); pose proof (rle_val _ _ _ (slr_new_rle dbg n (n + n1) g ltac:(lia)) E) as Ea; pose proof (rle_val _ _ _ (slr_new_rle dbg n1 (n + n1) g ltac:(lia)) E1) as Eb; congruence).
  assert (exists d' o, runs (dfa_new (lex ts) (t_actions t) wop_maps Eof) (d', o)) as (d' & o & R).
  { destruct (L2 _ wop_maps (lex ts) wop_covers Hterm) as [[_ (m & Hs)]|[_ (e' & Hs)]];
      apply (parses_runs dbg EntryPoint Eof rules g wop_wf Hg wop_maps SLR t Hm) in Hs; destruct Hs as (d' & o & R & _); eauto. }
  destruct (from_tokens_run text order dbg g t _ _ _ Hg Hm R) as (F & EF).
  assert (o = Err e) as ->.
  { destruct He as (F' & E'). specialize (EF (F + F') ltac:(lia)). change (map (fun t => lexed (fst t) (snd t)) ts) with (lex ts) in E'. rewrite E' in EF by lia. destruct o as [|e']; [|congruence]. exfalso.
    symmetry in EF. apply bind_val in EF as (it & _ & EF). apply bind_val in EF as (m & _ & EF). apply bind_val in EF as (b & _ & EF). discriminate. }
  destruct (main_bottom ts Ht g t d' (Err e) Hg Hm Hc R) as [[_ H]|[(p & Hp & H)|H]]; [left; exists P_index; auto|left; exists p; split; auto; tauto|right; exact H].
Qed.
End M.
