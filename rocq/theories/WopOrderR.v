(** Two orders of visiting the names of a hash set, on a whole grammar file. *)
From Coq Require Import List Bool Arith Lia String Permutation.
From Verif Require Import BTree Model Strings Base SpecP Mono Wop WopSpec WopP WopShape WopOrder WopProc WopFront WopParse WopDump WopExport WopLexSpec WopLex WopLexP WopStr WopText WopGen WopMeansSpec WopOrderSpec WopRead
  Spec Interface Export Wrap GrammarP LR Sound Check Examples Bundled.
Import ListNotations.
Local Open Scope list_scope.
Local Open Scope nat_scope.

Notation inner := WopShape.inner.

(** ** the aliases of a tokenized file are in different places *)
Lemma laid_nodup n ts : laid_out n ts -> NoDup (map snd ts).
Proof.
  intros [Ho Hr]. induction Ho as [|a ts Ha Ho IH]; [constructor|]. inversion Hr as [|? ? Hx Hr']; subst. cbn [map]. constructor; [|auto].
  intros Hi. apply in_map_iff in Hi as (b & Eb & Hb). rewrite Forall_forall in Ha. specialize (Ha b Hb). destruct a as [X [a1 a2]], b as [Y [b1 b2]]. cbn in *. injection Eb as -> ->. lia.
Qed.
Lemma pipe_snoc ps p : pipe_spans (ps ++ [p]) = pipe_spans ps ++ alias_spans p.
Proof. unfold pipe_spans. rewrite flat_map_app. cbn [flat_map]. now rewrite app_nil_r. Qed.
Lemma aka_nodup k a c : aka_toks k a c -> NoDup (opt_span a) /\ incl (opt_span a) (map snd k).
Proof.
  intros [|x y|x y z]; cbn [opt_span map snd]; (split; [repeat constructor; easy|]); intros s Hs; cbn in *; tauto.
Qed.
Lemma toks_nodup :
  (forall ts p, item_toks ts p -> NoDup (map snd ts) -> NoDup (alias_spans p) /\ incl (alias_spans p) (map snd ts)) /\
  (forall ts ps, pipe_toks ts ps -> NoDup (map snd ts) -> NoDup (pipe_spans ps) /\ incl (pipe_spans ps) (map snd ts)) /\
  (forall ts v, alt_toks ts v -> NoDup (map snd ts) -> NoDup (pipe_spans (fst v)) /\ incl (pipe_spans (fst v)) (map snd ts)) /\
  (forall ts vs, alts_toks ts vs -> NoDup (map snd ts) -> NoDup (inner vs) /\ incl (inner vs) (map snd ts)).
Proof.
  assert (Esym : forall s o a c, alias_spans (PSym s o a c) = opt_span a) by now destruct a.
  apply toks_mut.
  - intros ts s q o k a c Hp _ Hk N. rewrite Esym. destruct (aka_nodup _ _ _ Hk) as [H1 H2]. split; auto. rewrite !map_app. apply incl_appr, incl_appr, H2.
  - intros s q o k a c _ Hk N. rewrite Esym. destruct (aka_nodup _ _ _ Hk) as [H1 H2]. split; auto. cbn [map]. rewrite map_app. apply incl_tl, incl_appr, H2.
  - intros l ts r vs q o k a c _ IH _ Hk N. cbn [map] in N. rewrite map_app in N. cbn [map] in N. rewrite map_app in N. inversion N as [|? ? _ N']; subst. destruct (IH (NoDup_app_l _ _ N')) as [I1 I2]. destruct (aka_nodup _ _ _ Hk) as [H1 H2].
    rewrite alias_spans_group. split.
    + apply NoDup_app_intro; auto. intros s Hs Hi. apply (NoDup_app_remove' _ _ N' s (I2 s Hi)). right. apply in_app_iff. right. auto.
    + cbn [map]. rewrite map_app. cbn [map]. rewrite map_app. apply incl_tl, incl_app; [apply incl_appr, incl_tl, incl_appr; auto|apply incl_appl; auto].
  - intros ts p _ IH N. unfold pipe_spans. cbn [flat_map]. rewrite app_nil_r. auto.
  - intros ts ps ts' p _ IH _ IH' N. rewrite map_app in *. destruct (IH (NoDup_app_l _ _ N)) as [A1 A2]. destruct (IH' (NoDup_app_r _ _ N)) as [B1 B2]. rewrite pipe_snoc. split.
    + apply NoDup_app_intro; auto. intros s Hs Hs'. exact (NoDup_app_remove' _ _ N s (A2 s Hs) (B2 s Hs')).
    + apply incl_app; [apply incl_appl|apply incl_appr]; auto.
  - intros ts ps _ IH N. auto.
  - intros ts ps c _ IH N. rewrite map_app in *. destruct (IH (NoDup_app_l _ _ N)) as [A1 A2]. split; auto. apply incl_appl; auto.
  - intros ts v _ IH N. unfold inner. cbn [flat_map]. rewrite app_nil_r. auto.
  - intros ts vs p ts' v _ IH _ IH' N. rewrite map_app in *. cbn [map] in *. destruct (IH (NoDup_app_l _ _ N)) as [A1 A2]. pose proof (NoDup_app_r _ _ N) as N'. inversion N' as [|? ? _ N'']; subst. destruct (IH' N'') as [B1 B2].
    unfold inner. rewrite flat_map_app. cbn [flat_map]. rewrite app_nil_r. split.
    + apply NoDup_app_intro; auto. intros s Hs Hs'. apply (NoDup_app_remove' _ _ N s (A2 s Hs)). right. exact (B2 s Hs').
    + apply incl_app; [apply incl_appl; auto|apply incl_appr, incl_tl; auto].
Qed.
Definition apart_decl (d : decl) : Prop := match d with DRule _ _ alts => Forall (fun v => NoDup (pipe_spans (fst v))) alts | _ => True end.
Lemma file_apart ts ds : file_toks ts ds -> NoDup (map snd ts) -> Forall apart_decl ds.
Proof.
  assert (D : forall ts d, decl_toks ts d -> NoDup (map snd ts) -> apart_decl d).
  { intros us d Hd N. destruct Hd as [n name c t ty e r alts _ _ Ha| | |]; cbn [apart_decl]; auto. rewrite map_app in N. apply NoDup_app_r in N. cbn [map] in N. inversion N as [|? ? _ N1]; subst. rewrite map_app in N1. apply NoDup_app_r in N1. cbn [map] in N1. inversion N1 as [|? ? _ N2]; subst.
    destruct (proj2 (proj2 (proj2 toks_nodup)) _ _ Ha N2) as [Ni _]. apply Forall_forall. intros v Hv. exact (inner_nodup _ _ Ni Hv). }
  induction 1 as [us d s Hd|us ds us' d s Hf IH Hd]; intros N.
  - rewrite map_app in N. constructor; [|constructor]. eapply D; [exact Hd|exact (NoDup_app_l _ _ N)].
  - rewrite !map_app in N. apply Forall_app. split; [exact (IH (NoDup_app_l _ _ N))|]. constructor; [|constructor]. eapply D; [exact Hd|exact (NoDup_app_l _ _ (NoDup_app_r _ _ N))].
Qed.

(** ** two orders *)
Section R.
Variable text : span -> string.
Variables order order' : prod_build -> list prod_build -> list span -> list span.
Hypothesis Ho : iterates order.
Hypothesis Ho' : iterates order'.

Definition prel (p p' : prod_build) : Prop :=
  pb_production p = pb_production p' /\ pb_codeblock p = pb_codeblock p' /\ pb_ty p = pb_ty p' /\ forall t, proj text t (pb_aliases p) = proj text t (pb_aliases p').
Definition rrel (e e' : string * list prod_build) : Prop := fst e = fst e' /\ Forall2 prel (snd e) (snd e').
Definition brel (b b' : builder) : Prop := b_aliases b = b_aliases b' /\ b_imports b = b_imports b' /\ Forall2 rrel (b_rules b) (b_rules b').

Lemma Forall2_join {A B C} (R : A -> C -> Prop) (Q : B -> C -> Prop) (P : A -> B -> Prop) l m k : Forall2 R l k -> Forall2 Q m k -> (forall a b c, R a c -> Q b c -> P a b) -> Forall2 P l m.
Proof. intros F G H. revert m G. induction F as [|a c l k Ha F IH]; intros m G; inversion G; subst; constructor; eauto. Qed.
Lemma Forall2_both {A B} (R Q : A -> B -> Prop) l m : Forall2 R l m -> Forall2 Q l m -> Forall2 (fun a b => R a b /\ Q a b) l m.
Proof. induction 1; intros G; inversion G; subst; constructor; auto. Qed.
Lemma Forall2_each {A B C} (R : A -> B -> Prop) (Q : A -> C -> Prop) l m k : Forall2 R l m -> Forall2 Q l k -> Forall2 (fun a b => R a b /\ exists c, Q a c) l m.
Proof. intros F. revert k. induction F; intros k G; inversion G; subst; constructor; eauto. Qed.

Lemma many_form o n defs cb ty gs ps out : iterates o -> rep_pipe gs ps -> NoDup (pipe_spans ps) -> many text o defs n [mkProd [] cb ty []] gs = Val out ->
  Forall2 (okp text defs (mkProd [] cb ty []) (pipe_spans ps)) out (forms text ps).
Proof.
  intros Hi Hr N E. unfold many in E. destruct gs as [|g gs].
  - injection E as <-. inversion Hr; subst. constructor; [apply okp_nil|constructor].
  - cbn [mapM] in E. apply bind_val in E as (l & E & E'). injection E' as <-. apply bind_val in E as (x & Ex & E). injection E as <-. cbn [List.concat]. rewrite app_nil_r.
    exact (proj1 (single_form text o Hi defs n (g :: gs) ps (mkProd [] cb ty []) x Hr N Ex)).
Qed.
Lemma many_rel n defs cb ty gs ps out : rep_pipe gs ps -> psize ps < n -> NoDup (pipe_spans ps) -> many text order defs n [mkProd [] cb ty []] gs = Val out ->
  exists out', many text order' defs n [mkProd [] cb ty []] gs = Val out' /\ Forall2 prel out out'.
Proof.
  intros Hr Hn N E. destruct (clean_pipe ps) eqn:Hc; [|rewrite (many_unclean text order Ho defs n ps gs) in E; auto; discriminate].
  destruct (many_all text order Ho defs n ps gs (mkProd [] cb ty []) Hn Hr Hc) as (out0 & E0 & F0). rewrite E in E0. injection E0 as <-.
  destruct (many_all text order' Ho' defs n ps gs (mkProd [] cb ty []) Hn Hr Hc) as (out' & E' & F'). exists out'. split; [exact E'|].
  pose proof (many_form _ _ _ _ _ _ _ _ Ho Hr N E) as G. pose proof (many_form _ _ _ _ _ _ _ _ Ho' Hr N E') as G'.
  pose proof (Forall2_each _ _ _ _ _ G F0) as A. pose proof (Forall2_each _ _ _ _ _ G' F') as A'.
  eapply Forall2_join; [exact A|exact A'|]. intros p p' x ((P1 & P2 & _) & r & (_ & P3 & P4 & _)) ((Q1 & Q2 & _) & r' & (_ & Q3 & Q4 & _)).
  split; [congruence|]. split; [congruence|]. split; [congruence|]. intros t. rewrite P2, Q2. reflexivity.
Qed.
Lemma alts_rel n defs ty rule alts l : Forall2 (fun a b => snd a = snd b /\ rep_pipe (fst a) (fst b)) rule alts -> altsize alts < n -> Forall (fun v => NoDup (pipe_spans (fst v))) alts ->
  mapM (fun '(pipe, cb) => if String.eqb (text cb) "" then Panic P_assert else many text order defs n [mkProd [] cb ty []] pipe) rule = Val l ->
  exists l', mapM (fun '(pipe, cb) => if String.eqb (text cb) "" then Panic P_assert else many text order' defs n [mkProd [] cb ty []] pipe) rule = Val l' /\ Forall2 prel (List.concat l) (List.concat l').
Proof.
  intros F. revert l. induction F as [|[gs cb] [ps cb'] rule alts [E Hr] F IH]; intros l Hn Ha El.
  - injection El as <-. exists []. split; [reflexivity|constructor].
  - simpl in E, Hr. subst cb'. cbn [mapM] in El |- *. unfold altsize in Hn. simpl in Hn. apply bind_val in El as (out & Eo & El). apply bind_val in El as (ls & Els & El). injection El as <-. inversion Ha as [|? ? N Ha']; subst.
    destruct (String.eqb (text cb) ""); [discriminate|]. cbn [fst] in N. destruct (many_rel n defs cb ty gs ps out Hr ltac:(lia) N Eo) as (out' & Eo' & Fo). destruct (IH ls ltac:(unfold altsize; lia) Ha' Els) as (ls' & Els' & Fl).
    exists (out' :: ls'). rewrite Eo'. cbn [bind]. rewrite Els'. split; [reflexivity|]. cbn [List.concat]. now apply Forall2_app.
Qed.
Lemma rules_get k r r' : Forall2 rrel r r' -> bm_get k r = None -> bm_get k r' = None.
Proof. induction 1 as [|[k1 v1] [k2 v2] r r' [E _] F IH]; [easy|]. cbn [fst] in E. subst k2. cbn [bm_get]. destruct (BTree.eqb k k1); auto. discriminate. Qed.
Lemma rules_insert k v v' r r' : Forall2 prel v v' -> Forall2 rrel r r' -> Forall2 rrel (bm_insert k v r) (bm_insert k v' r').
Proof.
  intros Fv. induction 1 as [|[k1 v1] [k2 v2] r r' [E Fe] F IH]; cbn [bm_insert]; [repeat constructor; auto|]. cbn [fst snd] in E, Fe. subst k2.
  change (Forall2 rrel (match cmp k k1 with Lt => (k, v) :: (k1, v1) :: r | Eq => (k, v) :: r | Gt => (k1, v1) :: bm_insert k v r end)
    (match cmp k k1 with Lt => (k, v') :: (k1, v2) :: r' | Eq => (k, v') :: r' | Gt => (k1, v2) :: bm_insert k v' r' end)). destruct (cmp k k1).
  - constructor; [split; auto|exact F].
  - constructor; [split; auto|]. constructor; [split; auto|exact F].
  - constructor; [split; auto|exact IH].
Qed.
Lemma step_rel n b b' g d b1 : brel b b' -> rep_decl g d -> declsize d < n -> apart_decl d -> WopProc.step text order n b g = Val b1 -> exists b1', WopProc.step text order' n b' g = Val b1' /\ brel b1 b1'.
Proof.
  intros (R1 & R2 & R3) R Hn Ha E. destruct R as [g nm t rule als Eg F|g s Eg|g tk alias Eg]; unfold WopProc.step in *; rewrite Eg in *.
  - unfold rule_decl in *. apply bind_val in E as (l & El & E). destruct (alts_rel n _ t rule als l F Hn Ha El) as (l' & El' & Fl). rewrite <- R1, El'. cbn [bind].
    destruct (bm_get (text nm) (b_rules b)) as [old|] eqn:Eb; [discriminate|]. rewrite (rules_get _ _ _ R3 Eb). injection E as <-. eexists. split; [reflexivity|]. split; [reflexivity|]. split; [exact R2|]. cbn [b_rules]. now apply rules_insert.
  - injection E as <-. eexists. split; [reflexivity|]. split; [exact R1|]. split; [|exact R3]. unfold use_decl. cbn [b_imports]. now rewrite R2.
  - unfold token_decl in *. rewrite <- R1. destruct (bm_get (text tk) (b_aliases b)); [discriminate|]. injection E as <-. eexists. split; [reflexivity|]. split; [reflexivity|]. split; [exact R2|exact R3].
Qed.
Lemma fold_rel n l ds : Forall2 rep_decl l ds -> list_sum (map declsize ds) < n -> Forall apart_decl ds -> forall b b' b1, brel b b' -> foldM (WopProc.step text order n) l b = Val b1 ->
  exists b1', foldM (WopProc.step text order' n) l b' = Val b1' /\ brel b1 b1'.
Proof.
  induction 1 as [|g d l ds R F IH]; intros Hn Ha b b' b1 Hb E.
  - injection E as <-. exists b'. split; [reflexivity|exact Hb].
  - cbn [foldM] in E |- *. apply bind_val in E as (b2 & E1 & E). assert (Hn2 : declsize d < n /\ list_sum (map declsize ds) < n) by (change (list_sum (map declsize (d :: ds))) with (declsize d + list_sum (map declsize ds)) in Hn; lia). inversion Ha as [|? ? Hd Ha']; subst.
    destruct (step_rel n b b' g d b2 Hb R (proj1 Hn2) Hd E1) as (b2' & E2 & Hb2). rewrite E2. cbn [bind]. exact (IH (proj2 Hn2) Ha' b2 b2' b1 Hb2 E).
Qed.

(** what is written *)
Lemma brel_grammar b b' : brel b b' -> dump_grammar text b = dump_grammar text b'.
Proof.
  intros (_ & _ & F). unfold dump_grammar. induction F as [|e e' r r' [E Fp] F IH]; [reflexivity|]. cbn [map]. rewrite IH, E. f_equal. f_equal. unfold dump_rule.
  clear - Fp. induction Fp as [|p p' l l' (P1 & _) Fp IH]; [reflexivity|]. cbn [map]. now rewrite IH, P1.
Qed.
Lemma prods_reductors l l' r : Forall2 prel l l' -> dump_reductors text l = Val r -> exists r', dump_reductors text l' = Val r' /\ Forall2 same_function r r'.
Proof.
  intros F E. unfold dump_reductors in *. apply bind_val in E as (p0 & E0 & E). assert (E0' : exists q, expect P_index (nth_error l' 0) = Val q) by (destruct F; [discriminate|cbn; eauto]). destruct E0' as (q & ->). cbn [bind]. clear E0.
  revert r E. induction F as [|p p' l l' (P1 & P2 & P3 & P4) F IH]; intros r E; cbn [mapM] in E |- *; [injection E as <-; exists []; split; [reflexivity|constructor]|].
  apply bind_val in E as (f & Ef & E). apply bind_val in E as (fs & Efs & E). injection E as <-. apply bind_val in Ef as (c & Ec & Ef). injection Ef as <-. destruct (IH fs Efs) as (fs' & Efs' & Ffs).
  rewrite <- P2, Ec. cbn [bind]. rewrite Efs'. cbn [bind]. eexists. split; [reflexivity|]. constructor; [|exact Ffs]. split; [reflexivity|]. cbn [fst]. exact P4.
Qed.
Lemma brel_reductor b b' rs : brel b b' -> dump_reductor text b = Val rs -> exists rs', dump_reductor text b' = Val rs' /\ Forall2 (fun e e' => fst e = fst e' /\ Forall2 same_function (snd e) (snd e')) rs rs'.
Proof.
  intros (_ & _ & F). unfold dump_reductor. revert rs. induction F as [|e e' r r' [E Fp] F IH]; intros rs Er; cbn [mapM] in Er |- *; [injection Er as <-; exists []; split; [reflexivity|constructor]|].
  apply bind_val in Er as (x & Ex & Er). apply bind_val in Er as (xs & Exs & Er). injection Er as <-. apply bind_val in Ex as (y & Ey & Ex). injection Ex as <-. destruct (prods_reductors _ _ _ Fp Ey) as (y' & Ey' & Fy). destruct (IH xs Exs) as (xs' & Exs' & Fxs).
  rewrite Ey'. cbn [bind]. rewrite Exs'. cbn [bind]. eexists. split; [reflexivity|]. constructor; [|exact Fxs]. split; [exact E|exact Fy].
Qed.

(** files *)
Variable dbg : bool.
Lemma both_process ts ds : file_toks ts ds -> exists g F, rep_file g ds /\ forall fuel, F <= fuel ->
  from_tokens text order dbg fuel (lex ts) = (do b <- process text order fuel builder_new g; Val (inl b)) /\
  from_tokens text order' dbg fuel (lex ts) = (do b <- process text order' fuel builder_new g; Val (inl b)).
Proof.
  intros Hf. destruct (file_ev ts ds Hf) as (gr & He & Hr).
  destruct (wop_clean dbg) as (g & t & Hg & Hm & Hc).
  assert (Hps : parses t (lex ts) wop_maps (POk (Val (tk_item gr)))).
  { apply (exact_value dbg EntryPoint Eof rules g wop_wf Hg SLR t Hm); auto using wop_eof, wop_fresh; [left; discriminate|].
    exists [Program], [], (wrap gr). split; [eapply wop_prod; [simpl; tauto|reflexivity]|]. split; [|reflexivity].
    rewrite <- (app_nil_r (lex ts)). constructor; [exact He|constructor]. }
  apply (parses_runs dbg EntryPoint Eof rules g wop_wf Hg wop_maps SLR t Hm) in Hps. destruct Hps as (d' & o & R & Er).
  destruct o; [|discriminate]. destruct (start_items dbg g t _ d' Hg Hm R) as (it & Hev & Hi). rewrite Hi in Er. injection Er as Em.
  destruct (from_tokens_run text order dbg g t _ _ _ Hg Hm R) as (F0 & EF). destruct (from_tokens_run text order' dbg g t _ _ _ Hg Hm R) as (F1 & EF1).
  exists (mkTok (tk_item gr) (tk_ty it)), (F0 + F1). split; [destruct Hr as (l & E & Fl); exists l; split; auto|].
  intros fuel L. rewrite (EF fuel ltac:(lia)), (EF1 fuel ltac:(lia)), Hi. cbn [rev app nth_error expect bind]. rewrite <- Em. split; reflexivity.
Qed.
Lemma error_same fuel toks e : from_tokens text order dbg fuel toks = Val (inr e) -> from_tokens text order' dbg fuel toks = Val (inr e).
Proof.
  unfold from_tokens. intros E. apply bind_val in E as (g & -> & E). cbn [bind]. apply bind_val in E as (t & -> & E). cbn [bind]. apply bind_val in E as (d & -> & E). cbn [bind]. apply bind_val in E as ([d' o] & -> & E). cbn [bind].
  destruct o; [|exact E]. apply bind_val in E as (it & _ & E). apply bind_val in E as (m & _ & E). apply bind_val in E as (b & _ & E). discriminate.
Qed.
Lemma reads_fun o ts r r' : reads text o dbg ts r -> reads text o dbg ts r' -> r = r'.
Proof. intros (F & H) (F' & H'). rewrite <- (H (F + F') ltac:(lia)). apply H'. lia. Qed.

Theorem reads_rel ts ds b : file_toks ts ds -> NoDup (map snd ts) -> reads text order dbg ts (Val (inl b)) -> exists b', reads text order' dbg ts (Val (inl b')) /\ brel b b'.
Proof.
  intros Hf N (F & Hr). pose proof (file_apart _ _ Hf N) as Ha. destruct (both_process ts ds Hf) as (g & F0 & (l & Eg & Fl) & Ep).
  set (n := F + F0 + S (list_sum (map declsize ds))). specialize (Hr n ltac:(unfold n; lia)). fold (lex ts) in Hr. rewrite (proj1 (Ep n ltac:(unfold n; lia))) in Hr. apply bind_val in Hr as (b0 & Eb & [= <-]).
  unfold process in Eb. rewrite Eg in Eb. destruct (fold_rel n l ds Fl ltac:(unfold n; lia) Ha builder_new builder_new b0) as (b' & Eb' & Hb'); [split; [reflexivity|split; [reflexivity|constructor]]|exact Eb|].
  exists b'. split; [|exact Hb']. exists n. intros fuel L. fold (lex ts). rewrite (proj2 (Ep fuel ltac:(unfold n in L; lia))).
  assert (Epr : process text order' n builder_new g = Val b') by (unfold process; rewrite Eg; exact Eb'). now rewrite (rle_val _ _ _ (process_rle text order' n fuel builder_new g L) Epr).
Qed.
End R.

Theorem from_str_same lg order order' dbg src r : iterates order -> iterates order' -> reads (slice src) order dbg (tokenize lg src) r ->
  match r with
  | Val (inl b) => exists b', reads (slice src) order' dbg (tokenize lg src) (Val (inl b')) /\ same_output (slice src) b b'
  | _ => reads (slice src) order' dbg (tokenize lg src) r
  end.
Proof.
  intros Ho Ho' Hr. pose proof (laid_nodup _ _ (lexes_laid lg _ _ (tokenize_lexes lg src))) as N.
  assert (Ht : Forall (fun x => term rules (fst x)) (tokenize lg src)) by (eapply lexed_terms, tokenize_lexes).
  destruct (reads_decides (slice src) order dbg Ho (tokenize lg src) Ht) as [(ds & Hf & [[Hv (b & Hb)]|[Hv Hp]])|[Hn (e & He)]].
  - rewrite (reads_fun _ _ _ _ _ _ Hr Hb). destruct (reads_rel (slice src) order order' Ho Ho' dbg _ ds b Hf N Hb) as (b' & Hb' & Rb). exists b'. split; [exact Hb'|].
    assert (Hd : exists rs, dump_reductor (slice src) b = Val rs).
    { destruct (from_str_total lg order Ho dbg src) as [(ds' & _ & _ & b2 & F & rs & E & Hd)|[(ds' & _ & _ & F & E)|(_ & e & F & E)]].
      - assert (Hr2 : reads (slice src) order dbg (tokenize lg src) (Val (inl b2))) by (exists F; exact E). pose proof (reads_fun _ _ _ _ _ _ Hb Hr2) as Eb. injection Eb as <-. eauto.
      - assert (Hr2 : reads (slice src) order dbg (tokenize lg src) (Panic P_assert)) by (exists F; exact E). discriminate (reads_fun _ _ _ _ _ _ Hb Hr2).
      - assert (Hr2 : reads (slice src) order dbg (tokenize lg src) (Val (inr e))) by (exists F; exact E). discriminate (reads_fun _ _ _ _ _ _ Hb Hr2). }
    destruct Hd as (rs & Hd). destruct (brel_reductor _ _ _ _ Rb Hd) as (rs' & Hd' & Fr). pose proof (brel_grammar _ _ _ Rb) as Eg. destruct Rb as (R1 & R2 & _).
    split; [exact R2|]. split; [exact R1|]. split; [exact Eg|]. exists rs, rs'. auto.
  - rewrite (reads_fun _ _ _ _ _ _ Hr Hp). destruct (reads_decides (slice src) order' dbg Ho' (tokenize lg src) Ht) as [(ds' & Hf' & [[Hv' _]|[_ Hp']])|[Hn' _]]; [|exact Hp'|now destruct (Hn' ds)].
    rewrite (WopRead.file_unique _ _ _ Hf' Hf) in Hv'. contradiction.
  - rewrite (reads_fun _ _ _ _ _ _ Hr He). destruct He as (F & He). exists F. intros fuel L. eapply error_same. eauto.
Qed.

(** ** the functions compute the same *)
Lemma binding_cases {A} (toks : list A) b : (exists v, run_binding toks b = Val v) \/ run_binding toks b = Panic P_index.
Proof.
  unfold run_binding. assert (H : forall i f, (exists v, fetch toks i f = Val v) \/ fetch toks i f = Panic P_index).
  { intros i [f|]; cbn [fetch]; [destruct (_ && _)|destruct (nth_error toks i)]; cbn; eauto. }
  destruct (bd_optional b) as [[]|].
  - destruct (H (bd_index b) (bd_final b)) as [(v & ->)| ->]; cbn; eauto.
  - destruct (nth_error toks 0); cbn; eauto.
  - apply H.
Qed.
Lemma run_all_cases {A} (toks : list A) bs : (forall b, In b bs -> bd_name b <> "toks"%string) ->
  (exists env, run_all toks bs = Val env /\ Forall2 (fun b x => fst x = bd_name b /\ run_binding toks b = Val (snd x)) bs env) \/
  (run_all toks bs = Panic P_index /\ exists b, In b bs /\ run_binding toks b = Panic P_index).
Proof.
  induction bs as [|b bs IH]; intros Hn; [left; exists []; split; [reflexivity|constructor]|]. cbn [run_all].
  destruct (binding_cases toks b) as [(v & Ev)|Ev]; rewrite Ev; cbn [bind].
  2: { right. split; [reflexivity|]. exists b. split; [now left|exact Ev]. }
  destruct (String.eqb_spec (bd_name b) "toks") as [En|_]; [destruct (Hn b (or_introl eq_refl) En)|].
  destruct IH as [(env & -> & F)|(-> & b' & Hb & Eb)]; [intros c Hc; apply Hn; now right| |]; cbn [bind].
  - left. eexists. split; [reflexivity|]. constructor; auto.
  - right. split; [reflexivity|]. exists b'. split; [now right|exact Eb].
Qed.
Lemma scope_of {A} (toks : list A) bs env n : Forall2 (fun b x => fst x = bd_name b /\ run_binding toks b = Val (snd x)) bs env ->
  Forall2 (fun b x => fst x = bd_name b /\ run_binding toks b = Val (snd x)) (filter (fun b => String.eqb (bd_name b) n) bs) (filter (fun x => String.eqb (fst x) n) env) /\
  in_scope env n = option_map snd (nth_error (rev (filter (fun x => String.eqb (fst x) n) env)) 0).
Proof.
  intros F. split.
  - induction F as [|b x bs env [H1 H2] F IH]; cbn [filter]; [constructor|]. rewrite H1. destruct (String.eqb (bd_name b) n); [constructor; auto|exact IH].
  - unfold in_scope. f_equal. clear F. induction env as [|x env IH] using rev_ind; [reflexivity|]. rewrite rev_app_distr, filter_app. cbn [rev app find filter]. destruct (String.eqb (fst x) n).
    + rewrite rev_app_distr. reflexivity.
    + rewrite app_nil_r. exact IH.
Qed.
Lemma same_scope {A} (toks : list A) f f' : same_function f f' -> ~ In "toks"%string (map bd_name (fst f)) ->
  (exists env env', run_all toks (fst f) = Val env /\ run_all toks (fst f') = Val env' /\ forall n, in_scope env n = in_scope env' n) \/
  (run_all toks (fst f) = Panic P_index /\ run_all toks (fst f') = Panic P_index).
Proof.
  intros [Hs Hb] Hn.
  assert (Hin : forall b, In b (fst f) <-> In b (fst f')).
  { intros b. assert (H : forall l, In b l <-> In b (filter (fun c => String.eqb (bd_name c) (bd_name b)) l)) by (intros l; rewrite filter_In, String.eqb_refl; tauto). rewrite (H (fst f)), (H (fst f')), Hb. reflexivity. }
  assert (N1 : forall b, In b (fst f) -> bd_name b <> "toks"%string) by (intros b Hi E; apply Hn; rewrite <- E; now apply in_map).
  assert (N2 : forall b, In b (fst f') -> bd_name b <> "toks"%string) by (intros b Hi; apply N1, Hin, Hi).
  destruct (run_all_cases toks (fst f) N1) as [(env & E1 & F1)|(E1 & b1 & Hb1 & P1)], (run_all_cases toks (fst f') N2) as [(env' & E2 & F2)|(E2 & b2 & Hb2 & P2)].
  - left. exists env, env'. split; [exact E1|]. split; [exact E2|]. intros n.
    destruct (scope_of toks _ _ n F1) as [G1 ->]. destruct (scope_of toks _ _ n F2) as [G2 ->]. rewrite <- Hb in G2. f_equal. f_equal. f_equal.
    clear - G1 G2. revert G2. generalize (filter (fun x => String.eqb (fst x) n) env') as e2. induction G1 as [|b x bs e [H1 H2] G1 IH]; intros e2 G2; inversion G2 as [|? y ? e2' [K1 K2] G2']; subst; [reflexivity|]. f_equal; [|auto].
    destruct x, y. cbn [fst snd] in *. rewrite H2 in K2. injection K2 as <-. congruence.
  - apply Hin in Hb2. destruct (Forall2_in_l_ex _ _ _ _ F1 Hb2) as (x & _ & _ & Ex). congruence.
  - apply Hin in Hb1. destruct (Forall2_in_l_ex _ _ _ _ F2 Hb1) as (x & _ & _ & Ex). congruence.
  - right. auto.
Qed.
Theorem same_function_runs {A} (code : string -> list (gtok A) -> (string -> option (bound (gtok A))) -> A) f f' its : respects code -> same_function f f' -> ~ In "toks"%string (map bd_name (fst f)) ->
  gen_reductor code f its = gen_reductor code f' its.
Proof.
  intros Hc Hf Hn. unfold gen_reductor. destruct (mapM unwrap_gtok its) as [toks|p|]; [|reflexivity|reflexivity]. cbn [bind]. unfold run_reductor.
  destruct (same_scope toks f f' Hf Hn) as [(env & env' & -> & -> & He)|[-> ->]]; [|reflexivity]. cbn [bind].
  destruct (nth_error toks 0); [|reflexivity]. cbn [expect bind]. destruct (nth_error (rev toks) 0); [|reflexivity]. cbn [expect bind]. f_equal. f_equal. rewrite (proj1 Hf). now apply Hc.
Qed.

(** ** a parser depends on its reductors through what they compute *)
Section Ext.
Context {T M : Type} {OT : Ord T}.
Definition fn_same (f f' : list (token T M) -> M) : Prop := forall l, f l = f' l.
Definition maps_same (m m' : reductmap T M) : Prop :=
  forall k, match bm_get k m, bm_get k m' with Some fs, Some fs' => Forall2 fn_same fs fs' | None, None => True | _, _ => False end.
Variables m m' : reductmap T M.
Hypothesis Hm : maps_same m m'.
Definition with_red (d : dfa T M) : dfa T M := mkDfa (d_buffer d) (d_states d) (d_items d) (d_table d) (d_top d) (d_finished d) m' (d_eof d).
Definition redone (r : res (dfa T M * outcome T)) : res (dfa T M * outcome T) := do '(d, o) <- r; Val (with_red d, o).
Lemma pop_ext d name p : d_reductors d = m -> dfa_pop (with_red d) name p = (do d' <- dfa_pop d name p; Val (with_red d')) /\ forall d', dfa_pop d name p = Val d' -> d_reductors d' = m.
Proof.
  intros E. unfold dfa_pop. cbn [with_red d_items d_reductors d_states]. rewrite E. destruct (_ <? _); [split; [reflexivity|discriminate]|]. specialize (Hm name).
  destruct (bm_get name m) as [fs|], (bm_get name m') as [fs'|]; try easy. cbn [expect bind].
  assert (Hn : match nth_error fs (snd p), nth_error fs' (snd p) with Some f, Some f' => fn_same f f' | None, None => True | _, _ => False end).
  { clear - Hm. revert Hm. generalize (snd p) as i. intros i F. revert i. induction F as [|f f' fs fs' H F IH]; intros [|i]; [exact Logic.I..|exact H|exact (IH i)]. }
  destruct (nth_error fs (snd p)) as [f|], (nth_error fs' (snd p)) as [f'|]; try easy. cbn [expect bind]. destruct (nth_error (d_states d) _) as [top|]; [|split; [reflexivity|discriminate]]. cbn [expect bind].
  split; [|intros d' [= <-]; reflexivity]. unfold with_red. cbn. now rewrite <- (Hn _).
Qed.
Lemma shift_ext d to : d_reductors d = m -> dfa_shift (with_red d) to = (with_red (fst (dfa_shift d to)), snd (dfa_shift d to)) /\ d_reductors (fst (dfa_shift d to)) = m.
Proof. intros E. unfold dfa_shift. cbn [with_red d_buffer]. destruct (d_buffer d); split; auto. Qed.
Lemma travel_ext fuel : forall d s, d_reductors d = m -> travel fuel (with_red d) s = redone (travel fuel d s) /\ forall d' o, travel fuel d s = Val (d', o) -> d_reductors d' = m.
Proof.
  induction fuel as [|n IH]; intros d s E; [split; [reflexivity|discriminate]|]. cbn [travel]. change (d_table (with_red d)) with (d_table d). change (d_top (with_red d)) with (d_top d).
  destruct (nth_error (d_table d) (d_top d)) as [st|]; [|split; [reflexivity|intros d' o [= <- <-]; exact E]]. destruct (bm_get s st) as [[to|to|name p| |a1 a2]|].
  all: try (split; [reflexivity|first [discriminate|intros d' o [= <- <-]; exact E]]; fail).
  - destruct (shift_ext d to E) as [-> Es]. destruct (dfa_shift d to) as [d1 o1]. cbn [fst snd] in *. split; [reflexivity|]. intros d' o [= <- <-]. exact Es.
  - destruct (pop_ext d name p E) as [-> Ep]. destruct (dfa_pop d name p) as [d1|q|]; cbn [bind]; [|split; [reflexivity|discriminate]..]. apply IH. auto.
Qed.
Lemma start_ext fuel : forall d, d_reductors d = m -> dfa_start fuel (with_red d) = redone (dfa_start fuel d).
Proof.
  induction fuel as [|n IH]; intros d E; [reflexivity|]. cbn [dfa_start]. change (d_finished (with_red d)) with (d_finished d). change (lookahead (with_red d)) with (lookahead d). destruct (d_finished d); [reflexivity|].
  destruct (travel_ext n d (lookahead d) E) as [-> Et]. destruct (travel n d (lookahead d)) as [[d1 o1]|q|]; cbn [redone bind]; try reflexivity. destruct o1; [apply IH; eauto|reflexivity].
Qed.
Theorem parse_ext fuel t input : parser_parse fuel t input m' = parser_parse fuel t input m.
Proof.
  unfold parser_parse, parser_dfa. destruct (expect _ _) as [eof|q|]; cbn [bind]; try reflexivity. change (dfa_new input (t_actions t) m' eof) with (with_red (dfa_new input (t_actions t) m eof)). rewrite start_ext by reflexivity.
  destruct (dfa_start fuel _) as [[d o]|q|]; cbn [redone bind]; try reflexivity.
Qed.
End Ext.

Lemma of_list_perm {K V} {OK : Ord K} (l l' : list (K * V)) : NoDup (map fst l) -> Permutation l l' -> bm_of_list l = bm_of_list l'.
Proof.
  intros N P. apply Total.msorted_ext; [apply bm_of_list_sorted..|]. intros k.
  assert (H : forall v, bm_get k (bm_of_list l) = Some v <-> bm_get k (bm_of_list l') = Some v).
  { intros v. rewrite !of_list_get; auto; [|eapply Permutation_NoDup; [apply Permutation_map; exact P|exact N]]. split; apply Permutation_in; auto using Permutation_sym. }
  destruct (bm_get k (bm_of_list l)) as [v|] eqn:E; [symmetry; now apply H|]. destruct (bm_get k (bm_of_list l')) as [v|] eqn:E'; [|reflexivity]. discriminate (proj2 (H v) eq_refl).
Qed.

(** ** the whole generated parser *)
Theorem same_parser lg order order' dbg src b b' rs rs' qs qs' es es' {V : Type} (code : string -> list (gtok V) -> (string -> option (bound (gtok V))) -> V) : iterates order -> iterates order' ->
  reads (slice src) order dbg (tokenize lg src) (Val (inl b)) -> reads (slice src) order' dbg (tokenize lg src) (Val (inl b')) ->
  dump_reductor (slice src) b = Val rs -> dump_reductor (slice src) b' = Val rs' -> Permutation qs rs -> Permutation qs' rs' ->
  Permutation es (dump_grammar (slice src) b) -> Permutation es' (dump_grammar (slice src) b') ->
  respects code -> (forall n fs f, In (n, fs) rs -> In f fs -> ~ In "toks"%string (map bd_name (fst f))) ->
  grammar_map es = grammar_map es' /\ forall fuel t input, parser_parse fuel t input (gen_maps code qs) = parser_parse fuel t input (gen_maps code qs').
Proof.
  intros Ho Ho' Hr Hr' Hd Hd' Pq Pq' Pe Pe' Hc Hn. destruct (from_str_same lg order order' dbg src _ Ho Ho' Hr) as (b2 & Hr2 & _ & _ & Eg & rs1 & rs2 & E1 & E2 & F).
  pose proof (reads_fun _ _ _ _ _ _ Hr' Hr2) as Eb. injection Eb as <-. rewrite Hd in E1. injection E1 as <-. rewrite Hd' in E2. injection E2 as <-.
  assert (Hso : forall o bb, iterates o -> reads (slice src) o dbg (tokenize lg src) (Val (inl bb)) -> msorted (b_rules bb)).
  { intros o bb Hi Hb. assert (Ht : Forall (fun x => term rules (fst x)) (tokenize lg src)) by (eapply lexed_terms, tokenize_lexes).
    destruct (reads_decides (slice src) o dbg Hi (tokenize lg src) Ht) as [(ds & Hf & _)|[_ (e & He)]]; [|discriminate (reads_fun _ _ _ _ _ _ Hb He)].
    exact (proj2 (proj2 (reads_file (slice src) o dbg Hi _ _ _ Hb Hf))). }
  pose proof (Hso _ _ Ho Hr) as S1. pose proof (Hso _ _ Ho' Hr') as S2.
  assert (Nr : NoDup (map fst rs)) by (rewrite (dump_names _ _ _ Hd); now apply sorted_NoDup). assert (Nr' : NoDup (map fst rs')) by (rewrite (dump_names _ _ _ Hd'); now apply sorted_NoDup). split.
  - assert (Pee : Permutation es es') by (rewrite Pe, Pe', Eg; reflexivity). rewrite !grammar_map_of_list. apply of_list_perm; [|now apply Permutation_map]. rewrite map_map. cbn [fst].
    eapply Permutation_NoDup; [apply Permutation_map, Permutation_sym; exact Pe|]. unfold dump_grammar. rewrite map_map. cbn [fst]. now apply sorted_NoDup.
  - intros fuel t input. symmetry. apply parse_ext. unfold gen_maps.
    assert (X : forall qs rs : list (string * list (list binding * string)), Permutation qs rs -> NoDup (map fst rs) -> bm_of_list (map (fun e => (fst e, map (gen_reductor code) (snd e))) qs) = bm_of_list (map (fun e => (fst e, map (gen_reductor code) (snd e))) rs)).
    { intros q r P N. symmetry. apply of_list_perm; [rewrite map_map; exact N|]. apply Permutation_map, Permutation_sym, P. }
    rewrite (X _ _ Pq Nr), (X _ _ Pq' Nr'). clear X. intros k.
    set (L := map (fun e => (fst e, map (gen_reductor code) (snd e))) rs). set (L' := map (fun e => (fst e, map (gen_reductor code) (snd e))) rs').
    assert (NL : NoDup (map fst L)) by (unfold L; rewrite map_map; exact Nr). assert (NL' : NoDup (map fst L')) by (unfold L'; rewrite map_map; exact Nr').
    assert (FL : Forall2 (fun e e' => fst e = fst e' /\ Forall2 fn_same (snd e) (snd e')) L L').
    { unfold L, L'. clear - F Hc Hn. induction F as [|e e' rs rs' [E Fe] F IH]; [constructor|]. cbn [map]. constructor; [|apply IH; intros n fs f Hi; apply (Hn n fs f); now right]. cbn [fst snd]. split; [exact E|].
      assert (Hn' : forall f, In f (snd e) -> ~ In "toks"%string (map bd_name (fst f))) by (intros f Hf; apply (Hn (fst e) (snd e) f); auto; left; now destruct e). clear - Fe Hc Hn'.
      induction Fe as [|f f' l l' H Fe IH]; [constructor|]. cbn [map]. constructor; [|apply IH; intros g Hg; apply Hn'; now right]. intros its. apply same_function_runs; auto. apply Hn'. now left. }
    change (match bm_get k (bm_of_list L), bm_get k (bm_of_list L') with Some fs, Some fs' => Forall2 fn_same fs fs' | None, None => True | _, _ => False end).
    destruct (bm_get k (bm_of_list L)) as [fs|] eqn:E.
    + apply (of_list_get _ _ _ NL) in E. destruct (Forall2_in_l_ex _ _ _ _ FL E) as ([k' fs'] & Hi & Ek & Ff). cbn [fst snd] in *. subst k'. apply (of_list_get _ _ _ NL') in Hi. rewrite Hi. exact Ff.
    + destruct (bm_get k (bm_of_list L')) as [fs'|] eqn:E'; [|exact Logic.I]. apply (of_list_get _ _ _ NL') in E'. destruct (Forall2_in_r_ex _ _ _ _ FL E') as ([k' fs] & Hi & Ek & Ff). cbn [fst snd] in *. subst k'. apply (of_list_get _ _ _ NL) in Hi. congruence.
Qed.
