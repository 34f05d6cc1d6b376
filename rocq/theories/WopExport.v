(** The theorems about wop in the form Prop_Wop.v states them. *)
From Coq Require Import List Bool Arith Lia String Permutation.
From Verif Require Import BTree Model Strings Wop WopSpec WopP WopProc WopDump WopFront Base Spec SpecP GrammarP LR Sound Interface Wrap Mono Check Export Examples Bundled WopParse.
Import ListNotations.
Local Open Scope list_scope.

Lemma reads_fun text order dbg ts r r' : reads text order dbg ts r -> reads text order dbg ts r' -> r = r'.
Proof. intros (F & H) (F' & H'). rewrite <- (H (F + F')) by lia. apply H'. lia. Qed.

Section E.
Variable text : span -> string.
Variable order : prod_build -> list prod_build -> list span -> list span.

Lemma valid_dec ds : {valid text ds} + {~ valid text ds}.
Proof.
  destruct (ListDec.NoDup_dec string_dec (rule_names text ds)) as [H1|H1]; [|right; intros H; now apply valid_ok in H].
  destruct (ListDec.NoDup_dec string_dec (alias_keys text ds)) as [H2|H2]; [|right; intros H; now apply valid_ok in H].
  destruct (Forall_dec (decl_ok text)) with (l := ds) as [H3|H3].
  - intros [name ty alts|s|tk al]; simpl; auto. apply bool_dec.
  - left. now apply valid_ok.
  - right. intros H. apply valid_ok in H. tauto.
Qed.


(** the places lie within the production *)
Definition inside (r : list span * env) : Prop := forall a i f, In (a, (i, f)) (snd r) -> match f with None => i < List.length (fst r) | Some f => i <= f <= List.length (fst r) end.
Lemma inside_app r r' : inside r -> inside r' -> inside (run_app r r').
Proof.
  intros H H' a i f Hin. unfold run_app in Hin. simpl in Hin. simpl. rewrite app_length. apply in_app_or in Hin as [Hin|Hin].
  - apply H in Hin. destruct f; lia.
  - unfold shift in Hin. apply in_map_iff in Hin as ([a' [i' f']] & [= <- <- <-] & Hin). apply H' in Hin. simpl. destruct f'; simpl; lia.
Qed.
Lemma runs_inside : forall ps r, In r (WopSpec.runs ps) -> inside r.
Proof.
  assert (I : forall p r, In r (runs_item p) -> inside r).
  { fix IH 1. intros [s o a c|vs o a c] r Hr.
    - simpl in Hr. assert (inside ([], [])) by (intros ? ? ? []). destruct Hr as [<-|Hr]; [|destruct o; [destruct Hr as [<-|[]]; auto|easy]].
      intros b i f Hin. destruct a as [a|]; [|easy]. destruct Hin as [[= <- <- <-]|[]]. simpl. lia.
    - simpl in Hr. apply in_app_or in Hr as [Hr|Hr]; [|destruct o; [destruct Hr as [<-|[]]; intros ? ? ? []|easy]].
      apply in_map_iff in Hr as (r' & <- & Hr). assert (Hi : inside r').
      { revert Hr. induction vs as [|v vs IHvs]; [easy|]. simpl. intros Hr. apply in_app_or in Hr as [Hr|Hr]; [|now apply IHvs]. destruct v as [ps cb]. simpl in Hr. clear IHvs. revert r' Hr.
        induction ps as [|p ps IHps]; intros r' Hr; [destruct Hr as [<-|[]]; intros ? ? ? []|]. apply in_flat_map in Hr as (r1 & H1 & Hr). apply in_map_iff in Hr as (r2 & <- & H2). apply inside_app; [now apply (IH p)|now apply IHps]. }
      intros b i f Hin. simpl in Hin. apply in_app_or in Hin as [Hin|Hin]; [|exact (Hi b i f Hin)]. destruct a as [a|]; [|easy]. destruct Hin as [[= <- <- <-]|[]]. simpl. lia. }
  induction ps as [|p ps IH]; intros r Hr; [destruct Hr as [<-|[]]; intros ? ? ? []|]. simpl in Hr. apply in_flat_map in Hr as (r1 & H1 & Hr). apply in_map_iff in Hr as (r2 & <- & H2). apply inside_app; eauto.
Qed.
Lemma place_in ps r n i : In r (WopSpec.runs ps) -> place text n (snd r) = Some (i, None) -> i < List.length (fst r).
Proof.
  intros Hr Hp. assert (exists a, In (a, (i, None)) (snd r)) as (a & Ha).
  { clear Hr. induction (snd r) as [|[a x] e IH]; [discriminate|]. simpl in Hp. destruct (String.eqb (text a) n); [injection Hp as ->; exists a; now left|]. destruct (IH Hp) as (a' & H). exists a'. now right. }
  exact (runs_inside ps r Hr a i None Ha).
Qed.

Variable dbg : bool.

Lemma reads_syntax ts b : reads text order dbg ts (Val (inl b)) -> exists ds, file_toks ts ds.
Proof.
  intros (F & H). specialize (H F (le_n _)). unfold from_tokens in H.
  apply bind_val in H as (g & Hg & H). apply bind_val in H as (t & Ht & H). apply bind_val in H as (d & Hd & H). apply bind_val in H as ([d' o] & Hr & H).
  destruct o as [|e]; [|discriminate].
  assert (Hm : makes SLR dbg g t) by (exists F; exact Ht).
  pose proof (makes_dfa dbg EntryPoint Eof rules g wop_wf Hg wop_maps SLR t Hm (map (fun t => lexed (fst t) (snd t)) ts)) as Hd'.
  rewrite Hd' in Hd. injection Hd as <-.
  destruct (start_items dbg g t (map (fun t => lexed (fst t) (snd t)) ts) d' Hg Hm) as (it & Hev & Hi); [exists F; exact Hr|].
  destruct (proj1 ev_sem _ _ _ Hev ts eq_refl) as (gr & _ & _ & ds & _ & H'). eauto.
Qed.

Hypothesis Ho : iterates order.

Lemma reads_file ts ds b : reads text order dbg ts (Val (inl b)) -> file_toks ts ds -> valid text ds /\ records text b ds /\ msorted (b_rules b).
Proof.
  intros Hr Hf. destruct (from_tokens_file text order dbg Ho ts ds Hf) as [H1 H2]. destruct (valid_dec ds) as [Hv|Hv].
  - split; auto. destruct (H1 Hv) as (b' & F & E & R). assert (Val (inl b) = Val (inl b') :> res (builder + error sym)) as [= ->]; [|exact R].
    eapply reads_fun; [exact Hr|]. exists F. exact E.
  - destruct (H2 Hv) as (F & E). assert (Val (inl b) = Panic P_assert :> res (builder + error sym)); [|discriminate]. eapply reads_fun; [exact Hr|]. exists F. exact E.
Qed.

(** ** the concrete syntax is decided *)
Theorem reads_decides ts : Forall (fun x => term rules (fst x)) ts ->
  (exists ds, file_toks ts ds /\ (valid text ds /\ (exists b, reads text order dbg ts (Val (inl b))) \/ ~ valid text ds /\ reads text order dbg ts (Panic P_assert))) \/
  ((forall ds, ~ file_toks ts ds) /\ exists e, reads text order dbg ts (Val (inr e))).
Proof.
  intros Ht. destruct (from_tokens_cases text order dbg ts Ht) as [(ds & Hf)|(e & F & E)].
  - left. exists ds. split; auto. destruct (from_tokens_file text order dbg Ho ts ds Hf) as [H1 H2]. destruct (valid_dec ds) as [Hv|Hv]; [left|right]; split; auto.
    + destruct (H1 Hv) as (b & F & E & _). exists b, F. exact E.
    + destruct (H2 Hv) as (F & E). exists F. exact E.
  - right. assert (Hr : reads text order dbg ts (Val (inr e))) by (exists F; exact E). split; [|eauto].
    intros ds Hf. destruct (from_tokens_file text order dbg Ho ts ds Hf) as [H1 H2]. destruct (valid_dec ds) as [Hv|Hv].
    + destruct (H1 Hv) as (b & F' & E' & _). assert (H : reads text order dbg ts (Val (inl b))) by (exists F'; exact E'). discriminate (reads_fun _ _ _ _ _ _ Hr H).
    + destruct (H2 Hv) as (F' & E'). assert (H : reads text order dbg ts (Panic P_assert)) by (exists F'; exact E'). discriminate (reads_fun _ _ _ _ _ _ Hr H).
Qed.

(** ** the emitted code *)

(** everything the emitted productions and reductors are, rule by rule *)
Theorem emitted ts ds b es : reads text order dbg ts (Val (inl b)) -> file_toks ts ds -> Permutation es (dump_grammar text b) ->
  wf_rules (grammar_map es) /\
  (forall n, nonterm (grammar_map es) n <-> In n (rule_names text ds)) /\
  forall ds1 name ty alts ds2, ds = ds1 ++ DRule name ty alts :: ds2 ->
    forall i w, prod_at (grammar_map es) (text name) i w <->
      exists r, nth_error (flat_map (fun alt => expand (fst alt)) alts) i = Some r /\ w = map (fun s => text (resolve text ds1 s)) r.
Proof.
  intros Hr Hf Hp. destruct (reads_file ts ds b Hr Hf) as (Hv & (_ & _ & Hn & Hd) & Hs).
  destruct (dump_grammar_spec text b es Hs Hp) as [W Hg]. split; [exact W|]. split.
  - intros n. rewrite <- Hn. unfold nonterm. rewrite grammar_map_of_list.
    assert (N : NoDup (map fst es)).
    { eapply Permutation_NoDup; [apply Permutation_map; symmetry; exact Hp|]. unfold dump_grammar. rewrite map_map. simpl. apply sorted_NoDup. exact Hs. }
    assert (N' : NoDup (map fst (map (fun e : string * list (list string) => (fst e, rule_new (fst e) (snd e))) es))) by (rewrite map_map; exact N).
    split.
    + intros (r & H). rewrite of_list_get, in_map_iff in H by exact N'. destruct H as ([m ps] & [= -> <-] & Hin).
      apply (Permutation_in _ Hp) in Hin. unfold dump_grammar in Hin. rewrite in_map_iff in Hin. destruct Hin as ([m prods] & [= <- <-] & Hin).
      exists prods. now apply bm_in_get.
    + intros (prods & H). apply bm_get_in in H. exists (rule_new n (dump_rule text prods)). rewrite of_list_get, in_map_iff by exact N'. exists (n, dump_rule text prods). split; [reflexivity|].
      apply (Permutation_in _ (Permutation_sym Hp)). unfold dump_grammar. rewrite in_map_iff. now exists (n, prods).
  - intros ds1 name ty alts ds2 E i w. destruct (Hd _ _ _ _ _ E) as (prods & Hb & Hbu & _). rewrite Hg.
    assert (Eq : forall p, nth_error prods i = Some p -> exists r, nth_error (flat_map (fun alt => expand (fst alt)) alts) i = Some r /\ map text (pb_production p) = map (fun s => text (resolve text ds1 s)) r).
    { intros p Hi. destruct (Forall2_nth _ _ _ _ _ Hbu Hi) as ([alt r] & Hi' & E1 & _). exists r. simpl in E1. rewrite E1, map_map. split; [|reflexivity].
      apply (map_nth_error snd) in Hi'. rewrite map_flat_map in Hi'. erewrite flat_map_ext in Hi'; [exact Hi'|]. intros a. rewrite map_map. apply map_id. }
    split.
    + intros (prods' & p & Hb' & Hi & ->). rewrite Hb in Hb'. injection Hb' as <-. destruct (Eq p Hi) as (r & Er & Ep). eauto.
    + intros (r & Er & ->). assert (exists p, nth_error prods i = Some p) as (p & Hi).
      { destruct (nth_error prods i) eqn:Ei; [eauto|]. apply nth_error_None in Ei. apply Forall2_len in Hbu.
        assert (i < List.length (flat_map (fun alt => expand (fst alt)) alts)) by (apply nth_error_Some; congruence).
        assert (List.length (flat_map (fun alt => map (pair alt) (expand (fst alt))) alts) = List.length (flat_map (fun alt : list pat * span => expand (fst alt)) alts)).
        { clear. induction alts as [|a l IH]; simpl; [reflexivity|]. rewrite !app_length, map_length, IH. reflexivity. }
        lia. }
      exists prods, p. split; auto. split; auto. destruct (Eq p Hi) as (r' & Er' & Ep). congruence.
Qed.

Theorem emitted_reductors ts ds b rs rs' : reads text order dbg ts (Val (inl b)) -> file_toks ts ds -> dump_reductor text b = Val rs -> Permutation rs' rs ->
  forall ds1 name ty alts ds2, ds = ds1 ++ DRule name ty alts :: ds2 ->
  exists fs, bm_get (text name) (bm_of_list rs') = Some fs /\ List.length fs = List.length (flat_map (fun alt => expand (fst alt)) alts) /\
    forall i alt r, nth_error (flat_map (fun alt => map (pair alt) (WopSpec.runs (fst alt))) alts) i = Some (alt, r) ->
      exists bs c, nth_error fs i = Some (bs, c) /\ text (snd alt) = ("->" ++ c ++ "%")%string /\ (good text (fst alt) -> binds_right text (fst alt) bs r) /\ well_typed text (fst alt) bs.
Proof.
  intros Hr Hf Hd Hp ds1 name ty alts ds2 E. destruct (reads_file ts ds b Hr Hf) as (Hv & (_ & _ & Hn & Hrec) & Hs).
  destruct (Hrec _ _ _ _ _ E) as (prods & Hb & Hbu & Hbi).
  destruct (dump_reductor_spec text b rs rs' Hs Hd Hp _ _ Hb) as (fs & Hfs & Hl & Hi). exists fs. split; auto. split.
  - rewrite Hl. rewrite (Forall2_len _ _ _ Hbu). clear. induction alts as [|a l IH]; simpl; [reflexivity|]. rewrite !app_length, map_length, IH. reflexivity.
  - intros i alt r Hx. destruct (Forall2_nth_r _ _ _ _ _ Hbi Hx) as (p & Hpi & Hgood). simpl in Hgood.
    destruct (Hi i p Hpi) as (c & Hfi & Hc). exists (map (write_alias text) (pb_aliases p)), c. split; auto.
    destruct (Forall2_nth _ _ _ _ _ Hbu Hpi) as ([alt' w] & Hi' & _ & Ecb & _). simpl in Ecb.
    assert (alt' = alt) as ->.
    { apply (map_nth_error fst) in Hi'. apply (map_nth_error fst) in Hx. rewrite map_flat_map in Hi'. rewrite map_flat_map in Hx.
      erewrite flat_map_ext in Hi'. erewrite flat_map_ext in Hx. rewrite Hx in Hi'. injection Hi' as <-. reflexivity.
      - intros a. rewrite map_map. simpl. reflexivity.
      - intros a. rewrite map_map. simpl. rewrite <- runs_expand, map_map. reflexivity. }
    split; [congruence|exact Hgood].
Qed.

Lemma dump_names b rs : dump_reductor text b = Val rs -> map fst rs = map fst (b_rules b).
Proof.
  unfold dump_reductor. generalize (b_rules b). intros l. revert rs. induction l as [|e l IH]; intros rs E; [injection E as <-; reflexivity|].
  cbn [mapM] in E. apply bind_val in E as (x & E1 & E). apply bind_val in E as (xs & E2 & E). injection E as <-. apply bind_val in E1 as (y & _ & E1). injection E1 as <-. simpl. f_equal. now apply IH.
Qed.
Theorem emits_right ts alt r bs c : emits text order dbg ts alt r bs c ->
  text (snd alt) = ("->" ++ c ++ "%")%string /\ (good text (fst alt) -> binds_right text (fst alt) bs r) /\ well_typed text (fst alt) bs.
Proof.
  intros (b & rs & ds & ds1 & name & ty & alts & ds2 & fs & i & Hr & Hd & Hf & E & Hin & Hi & Hfs).
  destruct (reads_file ts ds b Hr Hf) as (_ & _ & Hs).
  destruct (emitted_reductors ts ds b rs rs Hr Hf Hd (Permutation_refl _) ds1 name ty alts ds2 E) as (fs' & Hg & _ & H).
  assert (N : NoDup (map fst rs)) by (rewrite (dump_names _ _ Hd); now apply sorted_NoDup).
  apply (of_list_get _ _ _ N) in Hin. rewrite Hg in Hin. injection Hin as ->. destruct (H i alt r Hi) as (bs' & c' & Hn & H'). rewrite Hfs in Hn. injection Hn as <- <-. exact H'.
Qed.
Theorem emits_safe ts alt r bs c : emits text order dbg ts alt r bs c -> good text (fst alt) -> fst r <> [] ->
  forall A (toks : list A), List.length toks = List.length (fst r) -> forall b, In b bs -> exists x, run_binding toks b = Val x.
Proof.
  intros He Hg Hne A toks Hl b Hb. assert (Hin : In r (WopSpec.runs (fst alt))).
  { destruct He as (b' & rs & ds & ds1 & name & ty & alts & ds2 & fs & i & _ & _ & _ & _ & _ & Hi & _). apply nth_error_In, in_flat_map in Hi as (alt' & _ & Hi). apply in_map_iff in Hi as (r' & [= -> ->] & Hi). exact Hi. }
  destruct (emits_right _ _ _ _ _ He) as (_ & H & _). destruct (H Hg) as [H1 H2]. specialize (H1 b Hb). destruct (H2 _ H1) as (b' & Ef & Hrun).
  assert (b' = b) as ->. { assert (Hx : In b (filter (fun x => String.eqb (bd_name x) (bd_name b)) bs)) by (apply filter_In; split; [exact Hb|apply String.eqb_refl]). rewrite Ef in Hx. now destruct Hx as [->|[]]. }
  rewrite Hrun; [|exact Hl|]; [|intros ->; simpl in Hl; destruct (fst r); [easy|discriminate]].
  unfold expected. destruct (place text (bd_name b) (snd r)) as [[i [f|]]|] eqn:Ep; [eauto| |eauto].
  assert (i < List.length toks) as Hlt by (rewrite Hl; eapply place_in; eauto).
  destruct (nth_error toks i) eqn:En; [eauto|]. apply nth_error_None in En. lia.
Qed.
End E.
