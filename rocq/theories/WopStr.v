(** wop from the source text to the emitted code. *)
From Coq Require Import List Bool Arith Lia Ascii String Permutation.
From Verif Require Import BTree Model Strings Wop WopSpec WopP WopProc WopDump WopFront Base Spec SpecP GrammarP LR Sound Interface Wrap Mono Check Export Examples Bundled WopParse WopExport WopLex WopLexSpec WopLexP.
Import ListNotations.
Local Open Scope list_scope.

Lemma lexed_terms lg src ts : lexes lg 0 src ts -> Forall (fun x => term rules (fst x)) ts.
Proof.
  intros H. eapply Forall_impl; [|exact (lexes_kinds lg src 0 src ts H eq_refl eq_refl)]. intros [x s] K. cbn [fst] in *.
  assert (L : forall k : option sym, In k (map fst (lexicon lg)) -> match k with Some x => term rules x | None => True end).
  { clear. intros k Hk. simpl in Hk. repeat (destruct Hk as [<-|Hk]; [first [exact Logic.I|leaf]|]). easy. }
  destruct K as [->|(r & Hr)]; [leaf|]. apply (L (Some x)). apply in_map_iff. now exists (Some x, r).
Qed.

(** ** what file_toks says about the tokens *)
Lemma expand_app ps qs : expand (ps ++ qs) = flat_map (fun w => map (app w) (expand qs)) (expand ps).
Proof.
  induction ps as [|p ps IH]; simpl; [rewrite app_nil_r; symmetry; erewrite map_ext; [apply map_id|reflexivity]|]. rewrite IH.
  rewrite flat_map_flat_map. apply flat_map_ext. intros w. rewrite flat_map_map, map_flat_map. apply flat_map_ext. intros v. rewrite map_map. apply map_ext. intros u. now rewrite app_assoc.
Qed.
Definition alts_good (ts : list lexeme) (vs : list (list pat * span)) : Prop := forall v, In v vs -> expand (fst v) <> [] /\ (snd v = (0, 0) \/ In (CodeBlock, snd v) ts).
Lemma flat_map_nonempty {A B} (f : A -> list B) l a : In a l -> f a <> [] -> flat_map f l <> [].
Proof. intros Hi Hn. destruct (f a) as [|b m] eqn:E; [easy|]. intros H. assert (In b (flat_map f l)) by (apply in_flat_map; exists a; rewrite E; split; [auto|now left]). rewrite H in H0. easy. Qed.
Lemma toks_good :
  (forall ts p, item_toks ts p -> expand_item p <> []) /\
  (forall ts ps, pipe_toks ts ps -> expand ps <> []) /\
  (forall ts v, alt_toks ts v -> expand (fst v) <> [] /\ (snd v = (0, 0) \/ In (CodeBlock, snd v) ts)) /\
  (forall ts vs, alts_toks ts vs -> vs <> [] /\ alts_good ts vs).
Proof.
  apply toks_mut.
  - intros. discriminate.
  - intros. discriminate.
  - intros l ts r vs q o k a c _ [Hn Hg] _ _. rewrite expand_item_group. destruct vs as [|v vs]; [easy|].
    intros H. apply app_eq_nil in H as [H _]. revert H. apply (flat_map_nonempty _ _ v); [now left|]. apply (Hg v). now left.
  - intros ts p _ Hp. simpl. destruct (expand_item p) as [|w ws]; [easy|]. discriminate.
  - intros ts ps ts' p _ Hps _ Hp. rewrite expand_app. destruct (expand ps) as [|w ws]; [easy|]. simpl. destruct (expand_item p) as [|v vs]; [easy|]. discriminate.
  - intros ts ps _ H. simpl. auto.
  - intros ts ps c _ H. simpl. split; auto. right. apply in_or_app. right. now left.
  - intros ts v _ H. split; [discriminate|]. intros v' [<-|[]]. exact H.
  - intros ts vs p ts' v _ [Hn Hg] _ [H1 H2]. split; [now destruct vs|]. intros v' Hi. apply in_app_or in Hi as [Hi|[<-|[]]].
    + destruct (Hg _ Hi) as [H3 [H4|H4]]; split; auto. right. apply in_or_app. now left.
    + split; auto. destruct H2; auto. right. apply in_or_app. right. now right.
Qed.
Lemma file_good ts ds : file_toks ts ds -> forall name ty alts, In (DRule name ty alts) ds -> alts <> [] /\ alts_good ts alts.
Proof.
  assert (D : forall ts d, decl_toks ts d -> forall name ty alts, d = DRule name ty alts -> alts <> [] /\ alts_good ts alts).
  { intros us d H name ty alts E. destruct H as [n nm c t ty' e r alts' _ _ Ha| | |]; try discriminate. injection E as -> -> ->.
    apply (proj2 (proj2 (proj2 toks_good))) in Ha as [Hn Hg]. split; auto. intros v Hv. destruct (Hg v Hv) as [H1 [H2|H2]]; split; auto.
    right. apply in_or_app. right. right. apply in_or_app. right. now right. }
  intros H name ty alts. induction H as [ts d s Hd|ts ds ts' d s _ IH Hd]; intros Hi.
  - destruct Hi as [->|[]]. destruct (D _ _ Hd _ _ _ eq_refl) as [H1 H2]. split; auto. intros v Hv. destruct (H2 v Hv) as [H3 [H4|H4]]; split; auto. right. apply in_or_app. now left.
  - apply in_app_or in Hi as [Hi|[->|[]]].
    + destruct (IH Hi) as [H1 H2]. split; auto. intros v Hv. destruct (H2 v Hv) as [H3 [H4|H4]]; split; auto. right. apply in_or_app. now left.
    + destruct (D _ _ Hd _ _ _ eq_refl) as [H1 H2]. split; auto. intros v Hv. destruct (H2 v Hv) as [H3 [H4|H4]]; split; auto. right. apply in_or_app. right. apply in_or_app. now left.
Qed.

(** every span of a declaration starts where a token starts and ends where that token or a later one ends *)
Definition spans_in (ts : list lexeme) (s : span) : Prop :=
  s = (0, 0) \/ exists l1 x l2 y l3, (ts = l1 ++ x :: l2 ++ y :: l3 \/ (ts = l1 ++ x :: l2 /\ y = x)) /\ s = (fst (snd x), snd (snd y)).
Lemma spans_app ts us s : spans_in ts s -> spans_in (ts ++ us) s.
Proof.
  intros [->|(l1 & x & l2 & y & l3 & [->|[-> ->]] & ->)]; [now left|right..].
  - exists l1, x, l2, y, (l3 ++ us). split; auto. left. rewrite <- !app_assoc. simpl. now rewrite <- app_assoc.
  - exists l1, x, (l2 ++ us), x, []. split; auto. right. split; auto. now rewrite <- app_assoc.
Qed.
Lemma spans_pre us ts s : spans_in ts s -> spans_in (us ++ ts) s.
Proof.
  intros [->|(l1 & x & l2 & y & l3 & [->|[-> ->]] & ->)]; [now left|right..].
  - exists (us ++ l1), x, l2, y, l3. split; auto. left. now rewrite <- !app_assoc.
  - exists (us ++ l1), x, l2, x, []. split; auto. right. split; auto. now rewrite <- app_assoc.
Qed.
Lemma spans_cons x ts s : spans_in ts s -> spans_in (x :: ts) s.
Proof. apply (spans_pre [x]). Qed.
Lemma spans_here X s ts : spans_in ((X, s) :: ts) s.
Proof. right. exists [], (X, s), ts, (X, s), []. split; [now right|]. now destruct s. Qed.
Lemma path_last ts s : path_toks ts s -> exists x us X b, ts = (x :: us) /\ fst s = fst (snd x) /\ (ts = [x] /\ s = snd x \/ exists vs, us = vs ++ [(X, b)] /\ snd s = snd b).
Proof.
  induction 1 as [s|ts a p b H (x & us & X & b' & -> & E & _)].
  - exists (Ident, s), [], Ident, s. split; auto.
  - exists x, (us ++ [(PathAccess, p); (Ident, b)]), Ident, b. split; auto. split; auto. right. exists (us ++ [(PathAccess, p)]). split; auto. now rewrite <- app_assoc.
Qed.
Lemma path_spans ts s : path_toks ts s -> spans_in ts s.
Proof.
  intros H. destruct (path_last _ _ H) as (x & us & X & b & -> & E & [[Eu Es]|(vs & -> & Es)]); right.
  - exists [], x, us, x, []. split; [now right|]. rewrite Es. now destruct (snd x).
  - exists [], x, vs, (X, b), []. split; [now left|]. simpl. rewrite <- E, <- Es. now destruct s.
Qed.
Lemma aka_spans ts a c : aka_toks ts a c -> forall s, In s (opt_span a) -> spans_in ts s.
Proof. intros [|x y|x y z] s Hs; simpl in Hs; try easy; destruct Hs as [<-|[]]; [apply spans_cons|apply spans_cons, spans_cons]; apply spans_here. Qed.
Lemma toks_spans :
  (forall ts p, item_toks ts p -> forall s, In s (all_spans p) -> spans_in ts s) /\
  (forall ts ps, pipe_toks ts ps -> forall s, In s (flat_map all_spans ps) -> spans_in ts s) /\
  (forall ts v, alt_toks ts v -> forall s, In s (snd v :: flat_map all_spans (fst v)) -> spans_in ts s) /\
  (forall ts vs, alts_toks ts vs -> forall s, In s (flat_map (fun v => snd v :: flat_map all_spans (fst v)) vs) -> spans_in ts s).
Proof.
  apply toks_mut.
  - intros ts s q o k a c Hp _ Hk s' [<-|Hs]; [apply spans_app; now apply path_spans|]. apply spans_pre, spans_pre. eapply aka_spans; eauto.
  - intros s q o k a c _ Hk s' [<-|Hs]; [apply spans_here|]. apply spans_cons, spans_pre. eapply aka_spans; eauto.
  - intros l ts r vs q o k a c _ IH _ Hk s Hs. simpl in Hs. apply in_app_or in Hs as [Hs|Hs].
    + apply spans_cons, spans_pre, spans_cons, spans_pre. eapply aka_spans; eauto.
    + apply spans_cons, spans_app. now apply IH.
  - intros ts p _ IH s Hs. simpl in Hs. rewrite app_nil_r in Hs. auto.
  - intros ts ps ts' p _ IH _ IH' s Hs. rewrite flat_map_app in Hs. apply in_app_or in Hs as [Hs|Hs]; [apply spans_app; auto|]. simpl in Hs. rewrite app_nil_r in Hs. apply spans_pre; auto.
  - intros ts ps _ IH s [<-|Hs]; [now left|auto].
  - intros ts ps c _ IH s [<-|Hs]; [apply spans_pre, spans_here|apply spans_app; auto].
  - intros ts v _ IH s Hs. simpl in Hs. rewrite app_nil_r in Hs. auto.
  - intros ts vs p ts' v _ IH _ IH' s Hs. rewrite flat_map_app in Hs. apply in_app_or in Hs as [Hs|Hs]; [apply spans_app; auto|]. simpl in Hs. rewrite app_nil_r in Hs. apply spans_pre, spans_cons; auto.
Qed.
Lemma decl_toks_spans ts d : decl_toks ts d -> forall s, In s (decl_spans d) -> spans_in ts s.
Proof.
  intros [n name c t ty e r alts H1 H2 H3|u us x H|u us x p g H|w x tk us al Hx H] s Hs; simpl in Hs.
  - destruct Hs as [<-|[<-|Hs]].
    + apply spans_app. now apply path_spans.
    + apply spans_pre, spans_cons, spans_app. now apply path_spans.
    + apply spans_pre, spans_cons, spans_pre, spans_cons. now apply (proj2 (proj2 (proj2 toks_spans)) _ _ H3).
  - destruct Hs as [<-|[]]. apply spans_cons. now apply path_spans.
  - destruct Hs as [<-|[]]. apply spans_cons. destruct (path_last _ _ H) as (y & us' & X & b & -> & E & _). right. exists [], y, (us' ++ [(PathAccess, p)]), (Glob, g), [].
    split; [left; simpl; now rewrite <- app_assoc|]. simpl. now rewrite E.
  - destruct Hs as [<-|[<-|[]]]; [apply spans_cons, spans_here|]. apply spans_cons, spans_cons. now apply path_spans.
Qed.
Lemma file_spans ts ds : file_toks ts ds -> forall d s, In d ds -> In s (decl_spans d) -> spans_in ts s.
Proof.
  induction 1 as [ts d s Hd|ts ds ts' d s _ IH Hd]; intros d' s' Hi Hs.
  - destruct Hi as [<-|[]]. apply spans_app. eapply decl_toks_spans; eauto.
  - apply in_app_or in Hi as [Hi|[<-|[]]]; [apply spans_app; eauto|]. apply spans_pre, spans_app. eapply decl_toks_spans; eauto.
Qed.
Lemma spans_range n ts s : laid_out n ts -> spans_in ts s -> fst s <= snd s <= n.
Proof.
  intros [Ho Hr] [->|(l1 & x & l2 & y & l3 & Et & ->)]; simpl; [lia|]. rewrite Forall_forall in Hr.
  assert (Hx : In x ts) by (destruct Et as [->|[-> _]]; apply in_elt). assert (Hy : In y ts).
  { destruct Et as [->|[-> ->]]; [|apply in_elt]. apply in_or_app. right. right. apply in_elt. }
  destruct Et as [->|[-> ->]].
  - assert (snd (snd x) <= fst (snd y)).
    { clear - Ho. induction l1 as [|a l1 IH]; simpl in Ho; inversion Ho as [|? ? H1 H2]; subst; auto. rewrite Forall_forall in H1. apply H1. apply in_elt. }
    apply Hr in Hx, Hy. destruct x as [X [x1 x2]], y as [Y [y1 y2]]. simpl in *. lia.
  - apply Hr in Hx. destruct x as [X [x1 x2]]. simpl in *. lia.
Qed.

Section S.
Variable lg : logos.
Variable order : prod_build -> list prod_build -> list span -> list span.
Hypothesis Ho : iterates order.
Variable dbg : bool.

(** all the slices taken of the source are in range *)
Theorem slices_in_range src ds : file_toks (tokenize lg src) ds -> forall d s, In d ds -> In s (decl_spans d) -> fst s <= snd s <= String.length src.
Proof. intros H d s Hd Hs. eapply spans_range; [eapply lexes_laid, tokenize_lexes|]. eapply file_spans; eauto. Qed.

(** a file without declared duplicates and misplaced code blocks compiles *)
Definition proper (src : string) (ds : list decl) : Prop :=
  NoDup (rule_names (slice src) ds) /\ NoDup (alias_keys (slice src) ds) /\
  forall name ty alts pipe cb, In (DRule name ty alts) ds -> In (pipe, cb) alts -> cb <> (0, 0) /\ clean_pipe pipe = true.
Lemma proper_valid src ds : file_toks (tokenize lg src) ds -> (proper src ds <-> valid (slice src) ds).
Proof.
  intros Hf. split; intros (H1 & H2 & H3); split; auto; split; auto; intros name ty alts pipe cb Hd Ha; destruct (H3 _ _ _ _ _ Hd Ha) as [Hc Hp]; split; auto.
  - destruct (file_good _ _ Hf _ _ _ Hd) as [_ Hg]. destruct (Hg _ Ha) as [_ [E|Hin]]; [easy|]. destruct cb as [a b]. simpl in Hin.
    destruct (lexes_text lg src 0 src _ (tokenize_lexes lg src) "" eq_refl eq_refl _ _ _ Hin) as (_ & _ & _ & [E|(r & Hr & M)]); [discriminate|].
    intros E. rewrite E in M. now apply lexicon_nonempty in Hr.
  - intros ->. apply Hc. unfold slice. simpl. now destruct src.
Qed.
Lemma code_of src sp : In (CodeBlock, sp) (tokenize lg src) -> exists c, slice src sp = ("->" ++ c ++ "}%")%string.
Proof.
  intros Hin. destruct sp as [a b]. destruct (lexes_text lg src 0 src _ (tokenize_lexes lg src) "" eq_refl eq_refl _ _ _ Hin) as (_ & _ & _ & [E|(r & Hr & M)]); [discriminate|].
  assert (r = re_code) as ->. { simpl in Hr. repeat (destruct Hr as [Hr|Hr]; [first [discriminate Hr|now injection Hr as <-]|]). easy. }
  now apply code_ends.
Qed.

Theorem from_str_total src :
  (exists ds, file_toks (tokenize lg src) ds /\ proper src ds /\ exists b F rs, (forall fuel, F <= fuel -> from_str lg order dbg fuel src = Val (inl b)) /\ dump_reductor (slice src) b = Val rs) \/
  (exists ds, file_toks (tokenize lg src) ds /\ ~ proper src ds /\ exists F, forall fuel, F <= fuel -> from_str lg order dbg fuel src = Panic P_assert) \/
  ((forall ds, ~ file_toks (tokenize lg src) ds) /\ exists e F, forall fuel, F <= fuel -> from_str lg order dbg fuel src = Val (inr e)).
Proof.
  destruct (reads_decides (slice src) order dbg Ho (tokenize lg src)) as [(ds & Hf & [[Hv (b & Hb)]|[Hv (F & E)]])|[Hn (e & F & E)]].
  - eapply lexed_terms, tokenize_lexes.
  - left. exists ds. split; auto. split; [now apply proper_valid|]. pose proof (reads_file (slice src) order dbg Ho _ _ _ Hb Hf) as (_ & (_ & _ & Hn & Hd) & Hs).
    assert (exists rs, dump_reductor (slice src) b = Val rs) as (rs & Ers).
    { apply dump_reductor_total; auto. intros name prods Hg. assert (Hin : In name (rule_names (slice src) ds)) by (apply Hn; eauto).
      unfold rule_names in Hin. apply in_flat_map in Hin as ([nm ty alts|u|tk al] & Hid & Hin); try easy. destruct Hin as [<-|[]].
      apply in_split in Hid as (ds1 & ds2 & Eds). destruct (Hd _ _ _ _ _ Eds) as (prods' & Hg' & Hbu & _). rewrite Hg in Hg'. injection Hg' as <-.
      assert (Hid : In (DRule nm ty alts) ds) by (rewrite Eds; apply in_elt). destruct (file_good _ _ Hf _ _ _ Hid) as [Hne Hgd]. split.
      - intros ->. apply Forall2_len in Hbu. symmetry in Hbu. apply length_zero_iff_nil in Hbu as E0. destruct alts as [|v vs]; [easy|]. simpl in E0. apply app_eq_nil in E0 as [E0 _]. apply map_eq_nil in E0. now apply (proj1 (Hgd v (or_introl eq_refl))).
      - intros p Hp. destruct (Forall2_in_l_ex _ _ _ _ Hbu Hp) as ([alt w] & Hx & _ & Ec & _). apply in_flat_map in Hx as (alt' & Ha & Hx). apply in_map_iff in Hx as (w' & [= -> _] & _).
        simpl in Ec. rewrite Ec. destruct alt as [pipe cb]. simpl. destruct (Hgd _ Ha) as [_ [E0|Hin]].
        + simpl in E0. subst cb. apply (proper_valid src ds Hf) in Hv. destruct Hv as (_ & _ & H3). now destruct (H3 _ _ _ _ _ Hid Ha).
        + destruct (code_of _ _ Hin) as (c & Hc). simpl in Hc. exists (c ++ "}")%string. rewrite Hc. simpl. now rewrite sapp_assoc. }
    destruct Hb as (F & E). exists b, F, rs. split; auto.
  - right. left. exists ds. split; auto. split; [now rewrite (proper_valid src ds Hf)|]. exists F. exact E.
  - right. right. split; auto. exists e, F. exact E.
Qed.
End S.
