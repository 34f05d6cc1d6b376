(** wop from the token sequence to the builder. *)
From Coq Require Import List Bool Arith Lia String Permutation.
From Verif Require Import BTree Model Strings Wop WopSpec WopP WopProc WopDump WopFront Base Spec SpecP GrammarP LR Sound Interface Wrap Mono Check Export Examples Bundled.
Import ListNotations.
Local Open Scope list_scope.

Lemma wop_wf : wf_rules rules.
Proof. apply grammar_map_wf. Qed.
Lemma wop_fresh : start_fresh rules EntryPoint.
Proof. apply (fresh_ok _ wop_wf). check. Qed.
Lemma wop_eof : term rules Eof.
Proof. leaf. Qed.
Lemma wop_covers : covers rules wop_maps.
Proof. apply (covers_ok _ _ wop_wf). check. Qed.
Lemma clean_ok {T} {OT : Ord T} (start eof : T) l n : match built start eof l SLR n with Val (g, t) => no_conflict t | _ => false end = true ->
  forall dbg, exists g t, grammar_new dbg start (grammar_map l) eof = Val g /\ makes SLR dbg g t /\ conflicts (t_actions t) = [].
Proof.
  intros H dbg. destruct (built start eof l SLR n) as [[g t]| |] eqn:E; try discriminate. exists g, t.
  unfold built in E. apply bind_val in E as (g0 & Hg & E). apply bind_val in E as (t0 & Ht & E). injection E as -> ->.
  assert (Hm : makes SLR true g t) by (exists n; exact Ht).
  destruct (debug_release _ _ _ _ Hg) as (Hg' & _ & Hd). split; [destruct dbg; auto|]. split; [destruct dbg; auto|].
  unfold no_conflict in H. now destruct (conflicts (t_actions t)).
Qed.
Lemma wop_clean dbg : exists g t, wop_grammar dbg = Val g /\ makes SLR dbg g t /\ conflicts (t_actions t) = [].
Proof. apply clean_ok with 400. check. Qed.
#[local] Opaque wop_rules wop_maps.

Section P.
Variable text : span -> string.
Variable order : prod_build -> list prod_build -> list span -> list span.
Notation from_tokens := (from_tokens text order).

Lemma from_tokens_rle dbg n m toks : n <= m -> rle (from_tokens dbg n toks) (from_tokens dbg m toks).
Proof.
  intros L. unfold from_tokens. apply rle_bind; [apply rle_refl|]. intros g. apply rle_bind; [now apply slr_new_rle|]. intros t.
  apply rle_bind; [apply rle_refl|]. intros d. apply rle_bind; [now apply start_rle|]. intros [d' []]; [|apply rle_refl].
  apply rle_bind; [apply rle_refl|]. intros it. apply rle_bind; [apply rle_refl|]. intros mm. apply rle_bind; [now apply process_rle|]. intros. apply rle_refl.
Qed.

Variable dbg : bool.

(** the whole pipeline in terms of the parser's run *)
Lemma from_tokens_run g t toks d' o : wop_grammar dbg = Val g -> makes SLR dbg g t -> runs (dfa_new toks (t_actions t) wop_maps Eof) (d', o) ->
  exists F, forall fuel, F <= fuel -> from_tokens dbg fuel toks =
    match o with
    | Err e => Val (inr e)
    | Ok => do it <- expect P_index (nth_error (rev (d_items d')) 0); do m <- tk_item it; do b <- process text order fuel builder_new (mkTok m (tk_ty it)); Val (inl b)
    end.
Proof.
  intros Hg Hm (n1 & E1). pose proof Hm as (n2 & E2). exists (n1 + n2). intros fuel L. unfold from_tokens. rewrite Hg. cbn [bind].
  rewrite (rle_val _ _ _ (slr_new_rle dbg n2 fuel g ltac:(lia)) E2). cbn [bind].
  rewrite (makes_dfa dbg EntryPoint Eof rules g wop_wf Hg wop_maps SLR t Hm). cbn [bind].
  rewrite (rle_val _ _ _ (start_rle n1 fuel _ ltac:(lia)) E1). reflexivity.
Qed.

(** the stack at the end *)
Lemma start_items g t toks d' : wop_grammar dbg = Val g -> makes SLR dbg g t -> runs (dfa_new toks (t_actions t) wop_maps Eof) (d', Ok) ->
  exists it, evals rules wop_maps Program toks it /\ d_items d' = [it].
Proof.
  intros Hg Hm R. destruct (Wp0 dbg EntryPoint Eof rules g wop_wf Hg) as (p0 & Hp0 & Hp & _).
  destruct (makes_made dbg EntryPoint Eof rules g wop_wf Hg SLR t p0 Hm Hp0) as (sfk & lookf & X).
  pose proof (m_lr0 _ _ _ _ _ _ _ _ _ _ X) as L. pose proof (Wr _ _ _ _ _ Hg) as Erl.
  destruct (run_ok _ _ _ _ _ _ _ _ L wop_maps) with (input := toks) (d' := d') as (its & He & Hi); try (rewrite Erl; auto using wop_eof, wop_covers, wop_fresh); auto.
  rewrite Erl in He. apply wop_prod_inv in Hp. destruct Hp as (ps & Hps & Hn).
  assert (fst p0 = [Program]) as E0.
  { clear - Hps Hn. Transparent wop_rules. simpl in Hps. repeat (destruct Hps as [[= <-]|Hps]); try contradiction; try discriminate. simpl in Hn. now injection Hn. }
  rewrite E0 in He. inversion He as [|? ? w1 w2 it its' He1 He2]; subst. inversion He2; subst. rewrite app_nil_r. exists it. auto.
Qed.

Hypothesis Ho : iterates order.

Lemma from_tokens_process ts ds : file_toks ts ds -> exists g F, rep_file g ds /\ forall fuel, F <= fuel ->
  from_tokens dbg fuel (lex ts) = (do b <- process text order fuel builder_new g; Val (inl b)).
Proof.
  intros Hf. destruct (file_ev ts ds Hf) as (gr & He & Hr).
  destruct (wop_clean dbg) as (g & t & Hg & Hm & Hc).
  assert (Hps : parses t (lex ts) wop_maps (POk (Val (tk_item gr)))).
  { apply (exact_value dbg EntryPoint Eof rules g wop_wf Hg SLR t Hm); auto using wop_eof, wop_fresh; [left; discriminate|].
    exists [Program], [], (wrap gr). split; [eapply wop_prod; [simpl; tauto|reflexivity]|]. split; [|reflexivity].
    rewrite <- (app_nil_r (lex ts)). constructor; [exact He|constructor]. }
  apply (parses_runs dbg EntryPoint Eof rules g wop_wf Hg wop_maps SLR t Hm) in Hps. destruct Hps as (d' & o & R & Er).
  destruct o; [|discriminate]. destruct (start_items g t _ d' Hg Hm R) as (it & Hev & Hi). rewrite Hi in Er. injection Er as Em.
  destruct (from_tokens_run g t _ _ _ Hg Hm R) as (F0 & EF).
  exists (mkTok (tk_item gr) (tk_ty it)), F0. split; [destruct Hr as (l & E & Fl); exists l; split; auto|].
  intros fuel L. rewrite (EF fuel L), Hi. cbn [rev app nth_error expect bind]. rewrite <- Em. reflexivity.
Qed.

Theorem from_tokens_file ts ds : file_toks ts ds ->
  (valid text ds -> exists b F, (forall fuel, F <= fuel -> from_tokens dbg fuel (lex ts) = Val (inl b)) /\ records text b ds /\ msorted (b_rules b)) /\
  (~ valid text ds -> exists F, forall fuel, F <= fuel -> from_tokens dbg fuel (lex ts) = Panic P_assert).
Proof.
  intros Hf. destruct (from_tokens_process ts ds Hf) as (g & F0 & Hr & Ep).
  destruct (process_spec text order Ho _ _ Hr) as [H1 H2]. split; intros Hv.
  - destruct (H1 Hv) as (b & F & Eb & Rb). exists b, (F0 + F). split; [|exact Rb]. intros fuel L. rewrite Ep by lia. rewrite Eb by lia. reflexivity.
  - destruct (H2 Hv) as (F & Eb). exists (F0 + F). intros fuel L. rewrite Ep by lia. rewrite Eb by lia. reflexivity.
Qed.

Lemma lex_tys ts : map tk_ty (lex ts) = map fst ts.
Proof. unfold lex. rewrite map_map. reflexivity. Qed.

Theorem from_tokens_cases ts : Forall (fun x => term rules (fst x)) ts ->
  (exists ds, file_toks ts ds) \/ exists e F, forall fuel, F <= fuel -> from_tokens dbg fuel (lex ts) = Val (inr e).
Proof.
  intros Ht. destruct (wop_exact SLR dbg) as (g & t & Hg & Hm & _ & _ & L1 & L2).
  assert (Hterm : Forall (term rules) (map tk_ty (lex ts))) by (rewrite lex_tys, Forall_map; exact Ht).
  destruct (L2 _ wop_maps (lex ts) wop_covers Hterm) as [[_ (m & Hs)]|[_ (e & He)]]; [left|right].
  - apply (parses_runs dbg EntryPoint Eof rules g wop_wf Hg wop_maps SLR t Hm) in Hs. destruct Hs as (d' & [|e] & R & Er); [|discriminate].
    destruct (start_items g t _ d' Hg Hm R) as (it & Hev & Hi). destruct (proj1 ev_sem _ _ _ Hev ts eq_refl) as (gr & _ & _ & ds & _ & H). eauto.
  - apply (parses_runs dbg EntryPoint Eof rules g wop_wf Hg wop_maps SLR t Hm) in He. destruct He as (d' & [|e'] & R & Er).
    + destruct (start_items g t _ d' Hg Hm R) as (it & Hev & Hi). rewrite Hi in Er. discriminate.
    + destruct (from_tokens_run g t _ _ _ Hg Hm R) as (F & EF). exists e', F. exact EF.
Qed.
End P.
