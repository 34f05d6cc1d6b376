(** The facts about [wop] in the form stated in Prop_Wop.v. *)
From Coq Require Import List Bool Arith Lia Ascii String Permutation.
From Verif Require Import BTree Model Strings Wop WopSpec WopP WopProc WopDump WopFront Spec Base Mono WopParse WopExport WopRead WopAlias WopLex WopLexSpec WopLexP WopStr WopText WopTextSpec WopTextP WopMain WopRun WopEx.
Import ListNotations.
Local Open Scope string_scope.
Local Open Scope list_scope.

Section S.
Variable text : span -> string.
Variable order : prod_build -> list prod_build -> list span -> list span.
Hypothesis Ho : iterates order.
Variable dbg : bool.

Lemma sum_expansion ts ds b es : reads text order dbg ts (Val (inl b)) -> file_toks ts ds -> Permutation es (dump_grammar text b) ->
  wf_rules (grammar_map es) /\ (forall n, nonterm (grammar_map es) n <-> In n (rule_names text ds)) /\
  forall ds1 name ty alts ds2, ds = ds1 ++ DRule name ty alts :: ds2 ->
    (forall i w, prod_at (grammar_map es) (text name) i w <->
       exists r, nth_error (flat_map (fun alt => expand (fst alt)) alts) i = Some r /\ w = map (fun s => text (resolve text ds1 s)) r) /\
    forall alt r, In alt alts -> (In r (expand (fst alt)) <-> picks (fst alt) r).
Proof.
  intros Hr Hf Hp. destruct (emitted text order dbg Ho ts ds b es Hr Hf Hp) as (H1 & H2 & H3). split; auto. split; auto.
  intros ds1 name ty alts ds2 E. split; [exact (H3 _ _ _ _ _ E)|]. intros alt r _. apply expand_picks.
Qed.

Lemma sum_lined_up ts ds b es rs rs' : reads text order dbg ts (Val (inl b)) -> file_toks ts ds -> Permutation es (dump_grammar text b) ->
  dump_reductor text b = Val rs -> Permutation rs' rs -> forall ds1 name ty alts ds2, ds = ds1 ++ DRule name ty alts :: ds2 ->
  exists fs, bm_get (text name) (bm_of_list rs') = Some fs /\
    (forall i, (exists w, prod_at (grammar_map es) (text name) i w) <-> exists f, nth_error fs i = Some f) /\
    forall i alt r, nth_error (flat_map (fun alt => map (pair alt) (runs (fst alt))) alts) i = Some (alt, r) ->
      prod_at (grammar_map es) (text name) i (map (fun s => text (resolve text ds1 s)) (fst r)) /\
      exists bs c, nth_error fs i = Some (bs, c) /\ text (snd alt) = ("->" ++ c ++ "%")%string.
Proof.
  intros Hr Hf Hp Hd Hp' ds1 name ty alts ds2 E. destruct (emitted text order dbg Ho ts ds b es Hr Hf Hp) as (_ & _ & H).
  destruct (emitted_reductors text order dbg Ho ts ds b rs rs' Hr Hf Hd Hp' _ _ _ _ _ E) as (fs & Hg & Hl & Hi). exists fs. split; auto.
  assert (L : forall i, (exists w, prod_at (grammar_map es) (text name) i w) <-> i < List.length (flat_map (fun alt => expand (fst alt)) alts)).
  { intros i. rewrite <- nth_error_Some. split.
    - intros (w & Hw). apply (H _ _ _ _ _ E) in Hw as (r & Hw & _). congruence.
    - destruct (nth_error (flat_map (fun alt => expand (fst alt)) alts) i) as [r|] eqn:Er; [|easy]. intros _. eexists. apply (H _ _ _ _ _ E). eauto. }
  split.
  - intros i. rewrite L, <- Hl, <- nth_error_Some. destruct (nth_error fs i); split; eauto; intros; [discriminate|easy|]. destruct H0. discriminate.
  - intros i alt r Hn. destruct (Hi i alt r Hn) as (bs & c & H1 & H2 & _). split; [|eauto]. apply (H _ _ _ _ _ E). exists (fst r). split; [|reflexivity].
    assert (X : flat_map (fun alt => expand (fst alt)) alts = map (fun x => fst (snd x)) (flat_map (fun alt => map (pair alt) (runs (fst alt))) alts)).
    { clear. induction alts as [|a l IH]; simpl; [reflexivity|]. rewrite map_app, <- IH. f_equal. rewrite map_map. simpl. symmetry. apply runs_expand. }
    rewrite X, nth_error_map, Hn. reflexivity.
Qed.

Lemma sum_records ts ds : file_toks ts ds ->
  (valid text ds -> exists b, reads text order dbg ts (Val (inl b)) /\ records text b ds) /\ (~ valid text ds -> reads text order dbg ts (Panic P_assert)).
Proof.
  intros Hf. destruct (from_tokens_file text order dbg Ho ts ds Hf) as [H1 H2]. split; intros Hv.
  - destruct (H1 Hv) as (b & F & E & R & _). exists b. split; auto. exists F. exact E.
  - destruct (H2 Hv) as (F & E). exists F. exact E.
Qed.

Lemma sum_syntax ts : Forall (fun x => term rules (fst x)) ts ->
  ((exists ds, file_toks ts ds) <-> ~ exists e, reads text order dbg ts (Val (inr e))) /\ (forall ds ds', file_toks ts ds -> file_toks ts ds' -> ds = ds').
Proof.
  intros Ht. split; [|intros; eapply file_unique; eauto]. destruct (reads_decides text order dbg Ho ts Ht) as [(ds & Hf & C)|[Hn (e & He)]].
  - split; [|eauto]. intros _ (e & He). destruct C as [[_ (b & Hb)]|[_ Hb]]; pose proof (reads_fun _ _ _ _ _ _ He Hb); discriminate.
  - split; [intros (ds & Hf); now destruct (Hn ds)|]. intros N. destruct N. eauto.
Qed.
End S.

Lemma dump_text_total text entry b rs rules : entry <> "" -> dump_reductor text b = Val rs -> Permutation rules (b_rules b) -> exists s, dump_reductor_text text entry b rules = Val s.
Proof.
  intros Hn E P. unfold dump_reductor_text. destruct (String.eqb_spec entry ""); [easy|].
  assert (exists l, mapM (fun e => write_rule_reduction text entry (fst e) (snd e)) rules = Val l) as (l & ->); [|eexists; reflexivity].
  apply mapM_total. intros [nm prods] Hin. apply (Permutation_in _ P) in Hin. unfold dump_reductor in E.
  apply mapM_val in E. destruct (Forall2_in_l_ex _ _ _ _ E Hin) as (y & _ & Ey). apply bind_val in Ey as (fs & Ef & _). unfold dump_reductors in Ef. cbn [fst snd] in *.
  apply bind_val in Ef as (p0 & E0 & Ef). unfold write_rule_reduction. rewrite E0. cbn [bind]. apply mapM_val in Ef.
  assert (exists l, mapM (fun x => write_reductor text entry nm (text (pb_ty p0)) (fst x) (snd x)) (enum 0 prods) = Val l) as (l & ->); [|eexists; reflexivity].
  apply mapM_total. intros x Hx. apply enum_in in Hx. destruct (Forall2_in_l_ex _ _ _ _ Ef Hx) as (z & _ & Ez). apply bind_val in Ez as (c & Ec & _). unfold write_reductor. rewrite Ec. eexists. reflexivity.
Qed.
Lemma sum_dump lg order : iterates order -> forall dbg src ds b rules entry,
  file_toks (tokenize lg src) ds -> reads (slice src) order dbg (tokenize lg src) (Val (inl b)) -> Permutation rules (b_rules b) -> entry <> "" ->
  exists s, dump_reductor_text (slice src) entry b rules = Val s.
Proof. intros Ho dbg src ds b rules entry Hf Hb P He. destruct (dumps_total lg order Ho dbg src _ ds b (incl_refl _) Hb Hf) as (rs & E). eapply dump_text_total; eauto. Qed.

Lemma sum_dump_exact lg order : iterates order -> forall dbg src ds b rules entry,
  file_toks (tokenize lg src) ds -> reads (slice src) order dbg (tokenize lg src) (Val (inl b)) -> Permutation rules (b_rules b) ->
  ((exists s, dump_reductor_text (slice src) entry b rules = Val s) <-> entry <> "").
Proof.
  intros Ho dbg src ds b rules entry Hf Hb P. split; [|now apply (sum_dump lg order Ho dbg src ds)].
  intros (s & E) ->. discriminate E.
Qed.

Lemma ok_plain dbg : plain_builder (slice ok_src) (built_from dbg ok_src).
Proof.
  assert (E : forallb (fun i => flat_line (slice ok_src i)) (b_imports (built_from dbg ok_src)) &&
    forallb (fun e => plain_name (fst e) && forallb (fun p => forallb (fun s => plain_name (slice ok_src s)) (pb_production p)) (snd e)) (b_rules (built_from dbg ok_src)) = true) by (destruct dbg; vm_compute; reflexivity).
  apply andb_prop in E as [E1 E2]. rewrite forallb_forall in E1, E2. split; [exact E1|]. intros name prods Hin. apply E2 in Hin. cbn [fst snd] in Hin. apply andb_prop in Hin as [H1 H2]. split; auto.
  intros p s Hp Hs. rewrite forallb_forall in H2. apply H2 in Hp. rewrite forallb_forall in Hp. now apply Hp.
Qed.

Lemma late_facts dbg : reads (slice late_src) keep dbg (toks late_src) (Val (inl (built_from dbg late_src))) /\ file_toks (toks late_src) (decls_of late_src) /\
  alias_keys (slice late_src) (decls_of late_src) = ["N"; """+"""] /\ rule_names (slice late_src) (decls_of late_src) = ["S"; "N"] /\
  dump_grammar (slice late_src) (built_from dbg late_src) = [("N", [["a"; "Plus"]]); ("S", [["""+"""; "M"]])].
Proof.
  destruct (fine_facts late_src dbg) as (H1 & _ & H3); [apply each_fine; simpl; tauto|]. split; [exact H1|]. split; [exact H3|].
  split; [vm_compute; reflexivity|]. split; [vm_compute; reflexivity|]. destruct dbg; vm_compute; reflexivity.
Qed.
Lemma no_entry dbg : reads (slice ok_src) keep dbg (toks ok_src) (Val (inl (built_from dbg ok_src))) /\
  dump_reductor_text (slice ok_src) "" (built_from dbg ok_src) (b_rules (built_from dbg ok_src)) = Panic P_assert.
Proof. split; [|reflexivity]. apply fine_facts, each_fine. simpl. tauto. Qed.
