(** The generated parser computes what the grammar file says. *)
From Coq Require Import List Bool Arith Lia String Permutation.
From Verif Require Import BTree Model Strings Wop WopSpec WopP WopDump WopText WopTextP WopGen WopMeansSpec WopExport WopSum Spec SpecP Base Interface Export.
Import ListNotations.
Local Open Scope list_scope.

Section S.
Variable text : span -> string.
Variable order : prod_build -> list prod_build -> list span -> list span.
Hypothesis Ho : iterates order.
Variable dbg : bool.
Context {V : Type}.
Variable code : string -> list (gtok V) -> (string -> option (bound (gtok V))) -> V.

Lemma unwrap_sent (l : list (gtok V)) : mapM unwrap_gtok (map sent l) = Val l.
Proof. induction l as [|t l IH]; [reflexivity|]. cbn [map mapM]. rewrite IH. destruct t as [m ty]. reflexivity. Qed.
Lemma find_filter {A} (p : A -> bool) l : find p l = hd_error (filter p l).
Proof. induction l as [|a l IH]; [reflexivity|]. simpl. destruct (p a); [reflexivity|exact IH]. Qed.
Lemma filter_rev {A} (p : A -> bool) l : filter p (rev l) = rev (filter p l).
Proof. induction l as [|a l IH]; [reflexivity|]. simpl. rewrite filter_app, IH. simpl. destruct (p a); simpl; [reflexivity|now rewrite app_nil_r]. Qed.
Lemma filter_none {A} (p : A -> bool) l : (forall a, In a l -> p a = false) -> filter p l = [].
Proof. induction l as [|a l IH]; intros H; [reflexivity|]. simpl. rewrite (H a) by now left. apply IH. intros. apply H. now right. Qed.

(** what an emitted reductor computes *)
Lemma gen_value ts alt r bs c its a z : emits text order dbg ts alt r bs c -> good text (fst alt) -> fst r <> [] -> ~ In "toks"%string (pipe_names text (fst alt)) ->
  List.length its = List.length (fst r) -> hd_error its = Some a -> hd_error (rev its) = Some z ->
  exists scope, sees text (fst alt) its (snd r) scope /\
    gen_reductor code (bs, c) (map sent its) = Val (code c its scope, (fst (snd (tk_item a)), snd (snd (tk_item z)))).
Proof.
  intros He Hg Hne Hk Hl Ha Hz. destruct (emits_runs text order Ho dbg ts alt r bs c He Hg Hne Hk _ its Hl) as (vals & Ev & H1 & H2). exists (in_scope vals). split.
  - intros n. unfold in_scope. rewrite find_filter, filter_rev. split.
    + intros Hn. destruct (H2 n Hn) as (v & Ef & Ex). exists v. split; [exact Ex|]. rewrite Ef. reflexivity.
    + intros Hn. rewrite filter_none; [reflexivity|]. intros x Hx. apply String.eqb_neq. intros E. apply Hn, H1. rewrite <- E. now apply in_map.
  - unfold gen_reductor, run_reductor. rewrite unwrap_sent. cbn [bind fst snd]. rewrite Ev. cbn [bind].
    assert (X : forall l (x : gtok V), hd_error l = Some x -> nth_error l 0 = Some x) by (intros [|]; auto). rewrite (X _ _ Ha), (X _ _ Hz). reflexivity.
Qed.

Lemma sees_same ps (its : list (gtok V)) e s s' : sees text ps its e s -> sees text ps its e s' -> forall n, s n = s' n.
Proof.
  intros H H' n. destruct (in_dec string_dec n (pipe_names text ps)) as [Hn|Hn].
  - destruct (proj1 (H n) Hn) as (v & E & ->). destruct (proj1 (H' n) Hn) as (v' & E' & ->). congruence.
  - rewrite (proj2 (H n) Hn), (proj2 (H' n) Hn). reflexivity.
Qed.

Variables (ts : list lexeme) (ds : list decl) (b : builder) (es : list (string * list (list string))) (rs rs' : list (string * list (list binding * string))).
Hypothesis Hr : reads text order dbg ts (Val (inl b)).
Hypothesis Hf : file_toks ts ds.
Hypothesis He : Permutation es (dump_grammar text b).
Hypothesis Hd : dump_reductor text b = Val rs.
Hypothesis Hp : Permutation rs' rs.
Hypothesis Hs : sane text ds.
Notation rules := (grammar_map es).
Notation maps := (gen_maps code rs').

Lemma rs_nodup : NoDup (map fst rs').
Proof.
  eapply Permutation_NoDup; [apply Permutation_map, Permutation_sym; exact Hp|]. rewrite (dump_names text b rs Hd). apply sorted_NoDup. now apply (reads_file text order dbg Ho ts ds b Hr Hf).
Qed.
Lemma gen_get n fs : bm_get n (bm_of_list rs') = Some fs -> bm_get n maps = Some (map (gen_reductor code) fs).
Proof.
  intros H. apply of_list_get in H; [|exact rs_nodup]. unfold gen_maps. apply of_list_get; [rewrite map_map; exact rs_nodup|]. apply in_map_iff. exists (n, fs). auto.
Qed.

(** the productions and reductors of a rule, choice by choice *)
Lemma rule_facts ds1 name ty alts ds2 : ds = ds1 ++ DRule name ty alts :: ds2 ->
  exists fs, bm_get (text name) maps = Some (map (gen_reductor code) fs) /\
    (forall i rhs, prod_at rules (text name) i rhs -> exists alt r, nth_error (flat_map (fun alt => map (pair alt) (runs (fst alt))) alts) i = Some (alt, r) /\
       rhs = map (fun s => text (resolve text ds1 s)) (fst r)) /\
    forall i alt r, nth_error (flat_map (fun alt => map (pair alt) (runs (fst alt))) alts) i = Some (alt, r) ->
      prod_at rules (text name) i (map (fun s => text (resolve text ds1 s)) (fst r)) /\
      exists bs c, nth_error fs i = Some (bs, c) /\ text (snd alt) = ("->" ++ c ++ "%")%string /\ emits text order dbg ts alt r bs c /\
        In alt alts /\ In r (runs (fst alt)) /\ good text (fst alt) /\ fst r <> [] /\ ~ In "toks"%string (pipe_names text (fst alt)).
Proof.
  intros E. destruct (sum_lined_up text order Ho dbg ts ds b es rs rs' Hr Hf He Hd Hp _ _ _ _ _ E) as (fs & Hg & _ & Hi). exists fs. split; [now apply gen_get|]. split.
  - intros i rhs H. apply (proj1 (proj2 (proj2 (sum_expansion text order Ho dbg ts ds b es Hr Hf He)) _ _ _ _ _ E)) in H as (w & Hw & ->).
    assert (X : flat_map (fun alt => expand (fst alt)) alts = map (fun x => fst (snd x)) (flat_map (fun alt => map (pair alt) (runs (fst alt))) alts)).
    { clear. induction alts as [|a l IH]; simpl; [reflexivity|]. rewrite map_app, <- IH. f_equal. rewrite map_map. simpl. symmetry. apply runs_expand. }
    rewrite X, nth_error_map in Hw. destruct (nth_error (flat_map (fun alt => map (pair alt) (runs (fst alt))) alts) i) as [[alt r]|]; [|discriminate]. injection Hw as <-. eauto.
  - intros i alt r Hx. destruct (Hi i alt r Hx) as (Hpa & bs & c & Hbs & Hc). split; [exact Hpa|]. exists bs, c. split; [exact Hbs|]. split; [exact Hc|].
    apply nth_error_In in Hx as Hin. apply in_flat_map in Hin as (alt' & Ha & Hin). apply in_map_iff in Hin as (r' & [= -> ->] & Hrr).
    destruct (Hs name ty alts alt) as (G1 & G2 & G3); [rewrite E; apply in_or_app; right; now left|exact Ha|]. split.
    + exists b, rs, ds, ds1, name, ty, alts, ds2, fs, i. repeat split; auto. apply (Permutation_in _ Hp). apply of_list_get; [exact rs_nodup|exact Hg].
    + split; [exact Ha|]. split; [exact Hrr|]. split; [exact G1|]. split; [|exact G2]. apply G3. apply expand_picks. rewrite <- runs_expand. now apply in_map.
Qed.

Lemma rule_split n : In n (rule_names text ds) -> exists ds1 name ty alts ds2, ds = ds1 ++ DRule name ty alts :: ds2 /\ text name = n.
Proof.
  unfold rule_names. intros H. apply in_flat_map in H as (d & Hin & H). destruct d as [name ty alts|s|tk al]; try easy. destruct H as [H|[]]. apply in_split in Hin as (ds1 & ds2 & E). exists ds1, name, ty, alts, ds2. auto.
Qed.
Lemma names_term n : term rules n <-> ~ In n (rule_names text ds).
Proof. unfold term. now rewrite (proj1 (proj2 (sum_expansion text order Ho dbg ts ds b es Hr Hf He)) n). Qed.

Lemma seq_len rhs w its : evals_seq rules maps rhs w its -> List.length its = List.length rhs.
Proof. induction 1; simpl; auto. Qed.
Lemma hds {A} (l : list A) : l <> [] -> exists a z, hd_error l = Some a /\ hd_error (rev l) = Some z.
Proof. intros H. destruct l as [|a l]; [easy|]. destruct (rev (a :: l)) as [|z l'] eqn:E; [apply (f_equal (@rev A)) in E; rewrite rev_involutive in E; discriminate|]. exists a, z. auto. Qed.
Lemma map_app_inv {A B} (f : A -> B) l u v : map f l = u ++ v -> exists u' v', l = u' ++ v' /\ map f u' = u /\ map f v' = v.
Proof.
  revert l. induction u as [|x u IH]; intros l E; [exists [], l; auto|]. destruct l as [|a l]; [discriminate|]. injection E as E1 E2. destruct (IH l E2) as (u' & v' & -> & <- & <-). exists (a :: u'), v'. simpl. rewrite E1. auto.
Qed.

Lemma evals_means :
  (forall X w0 it, evals rules maps X w0 it -> forall w, w0 = map sent w -> exists it0, it = sent it0 /\ means text code ds X w it0) /\
  (forall Xs w0 its, evals_seq rules maps Xs w0 its -> forall w, w0 = map sent w -> exists its0, its = map sent its0 /\ means_seq text code ds Xs w its0).
Proof.
  apply evals_mut.
  - intros tok Ht w E. destruct w as [|t [|? ?]]; try discriminate. injection E as ->. exists t. split; [reflexivity|]. apply means_tok. now apply names_term.
  - intros A i rhs w0 its fs f Hpa Hseq IH Hfs Hfi w E. destruct (IH w E) as (its0 & -> & Hm). clear IH.
    destruct (rule_split A) as (ds1 & name & ty & alts & ds2 & Eds & En). { apply (proj1 (proj2 (sum_expansion text order Ho dbg ts ds b es Hr Hf He))). destruct Hpa as (r & k & Hx & _). now exists r. }
    subst A. destruct (rule_facts _ _ _ _ _ Eds) as (fs' & Hg & Ha & Hb). rewrite Hg in Hfs. injection Hfs as <-. destruct (Ha i rhs Hpa) as (alt & r & Hx & ->).
    destruct (Hb i alt r Hx) as (_ & bs & c & Hbs & Hc & Hem & Hin & Hrr & G1 & G2 & G3). rewrite nth_error_map, Hbs in Hfi. injection Hfi as <-.
    assert (Hl : List.length its0 = List.length (fst r)). { apply seq_len in Hseq. rewrite !map_length in Hseq. exact Hseq. }
    destruct (hds its0) as (a & z & Hha & Hhz). { intros ->. destruct (fst r); [easy|discriminate]. }
    destruct (gen_value ts alt r bs c its0 a z Hem G1 G2 G3 Hl Hha Hhz) as (scope & Hsc & Ev). rewrite Ev.
    exists (mkTok (code c its0 scope, (fst (snd (tk_item a)), snd (snd (tk_item z)))) (text name)). split; [reflexivity|]. eapply means_rule; eauto.
  - intros w E. destruct w; [|discriminate]. exists []. split; constructor.
  - intros X Xs w1 w2 it its _ IH1 _ IH2 w E. symmetry in E. apply map_app_inv in E as (u & v & -> & <- & <-). destruct (IH1 u eq_refl) as (it0 & -> & H1). destruct (IH2 v eq_refl) as (its0 & -> & H2).
    exists (it0 :: its0). split; [reflexivity|]. now constructor.
Qed.

Hypothesis Hc : respects code.
Lemma means_evals :
  (forall X w it, means text code ds X w it -> evals rules maps X (map sent w) (sent it)) /\
  (forall Xs w its, means_seq text code ds Xs w its -> evals_seq rules maps Xs (map sent w) (map sent its)).
Proof.
  apply means_mut.
  - intros t Ht. simpl. change (tk_ty t) with (tk_ty (sent t)). apply evals_tok. simpl. now apply names_term.
  - intros ds1 name ty alts ds2 alt r w a its z c scope Eds Hin Hrr _ IH Hha Hhz Hsc Ht.
    destruct (rule_facts _ _ _ _ _ Eds) as (fs & Hg & _ & Hb).
    assert (Hx : In (alt, r) (flat_map (fun alt => map (pair alt) (runs (fst alt))) alts)) by (apply in_flat_map; exists alt; split; auto; now apply in_map).
    apply In_nth_error in Hx as (i & Hx). destruct (Hb i alt r Hx) as (Hpa & bs & c' & Hbs & Hc' & Hem & _ & _ & G1 & G2 & G3).
    assert (c' = c) as ->. { rewrite Ht in Hc'. injection Hc' as Hc'. clear - Hc'. revert c' Hc'. induction c as [|x c IH]; intros [|y c'] E; simpl in E; try discriminate; auto.
      - destruct c'; discriminate. - destruct c; discriminate. - injection E as -> E. f_equal. auto. }
    assert (Hl : List.length its = List.length (fst r)). { apply seq_len in IH. rewrite !map_length in IH. exact IH. }
    destruct (gen_value ts alt r bs c its a z Hem G1 G2 G3 Hl Hha Hhz) as (scope' & Hsc' & Ev).
    assert (E : sent (mkTok (code c its scope, (fst (snd (tk_item a)), snd (snd (tk_item z)))) (text name)) = mkTok (gen_reductor code (bs, c) (map sent its)) (text name)).
    { rewrite Ev. unfold sent. simpl. rewrite (Hc c its scope scope'); [reflexivity|]. eapply sees_same; eauto. }
    rewrite E. apply (evals_rule _ _ _ i _ _ _ _ (gen_reductor code (bs, c)) Hpa IH Hg). rewrite nth_error_map, Hbs. reflexivity.
  - constructor.
  - intros X Xs w1 w2 it its _ H1 _ H2. rewrite map_app. simpl. now constructor.
Qed.

Theorem gen_means start eof g k t : grammar_new dbg start rules eof = Val g -> makes k dbg g t -> k <> LALR \/ carries t ->
  ~ In eof (rule_names text ds) -> start_fresh rules start -> conflicts (t_actions t) = [] ->
  forall w m, parses t (map sent w) maps (POk m) <-> exists v, m = Val v /\ means_file text code ds start w v.
Proof.
  intros Hg Hm Hk Heof Hfr Hco w m. rewrite (exact_value dbg start eof rules g (proj1 (sum_expansion text order Ho dbg ts ds b es Hr Hf He)) Hg k t Hm Hk (proj2 (names_term eof) Heof) Hfr Hco). split.
  - intros (rhs & its & it & Hpa & Hev & ->). destruct (proj2 evals_means _ _ _ Hev w eq_refl) as (its0 & Ei & Hms).
    symmetry in Ei. apply map_app_inv in Ei as (u & v & -> & <- & Ev). destruct v as [|x [|? ?]]; try discriminate. injection Ev as <-. exists (tk_item x). split; [reflexivity|].
    destruct (rule_split start) as (ds1 & name & ty & alts & ds2 & Eds & En). { apply (proj1 (proj2 (sum_expansion text order Ho dbg ts ds b es Hr Hf He))). destruct Hpa as (r & kk & Hx & _). now exists r. }
    rewrite <- En in Hpa. apply (proj1 (proj2 (proj2 (sum_expansion text order Ho dbg ts ds b es Hr Hf He)) _ _ _ _ _ Eds)) in Hpa as (r & Hw & ->).
    destruct (flat_map (fun alt => expand (fst alt)) alts) as [|r0 rest] eqn:Ex; [discriminate|]. injection Hw as ->. eapply means_entry; eauto.
  - intros (v & -> & [ds1 name ty alts ds2 r rest its it Eds En Ex Hms]). exists (map (fun s => text (resolve text ds1 s)) r), (map sent its), (sent it). split; [|split].
    + rewrite <- En. apply (proj1 (proj2 (proj2 (sum_expansion text order Ho dbg ts ds b es Hr Hf He)) _ _ _ _ _ Eds)). exists r. rewrite Ex. auto.
    + apply (proj2 means_evals) in Hms. now rewrite map_app in Hms.
    + reflexivity.
Qed.

(** and it decides which inputs mean something *)
Lemma gen_covers : covers rules maps.
Proof.
  intros A i rhs Hpa. destruct (rule_split A) as (ds1 & name & ty & alts & ds2 & Eds & En). { apply (proj1 (proj2 (sum_expansion text order Ho dbg ts ds b es Hr Hf He))). destruct Hpa as (r & k & Hx & _). now exists r. }
  subst A. destruct (rule_facts _ _ _ _ _ Eds) as (fs & Hg & Ha & Hb). destruct (Ha i rhs Hpa) as (alt & r & Hx & _). destruct (Hb i alt r Hx) as (_ & bs & c & Hbs & _).
  exists (map (gen_reductor code) fs), (gen_reductor code (bs, c)). split; [exact Hg|]. rewrite nth_error_map, Hbs. reflexivity.
Qed.
Theorem gen_decides start eof g k t : grammar_new dbg start rules eof = Val g -> makes k dbg g t -> k <> LALR \/ carries t ->
  ~ In eof (rule_names text ds) -> start_fresh rules start -> conflicts (t_actions t) = [] -> no_unit_cycle rules ->
  forall w, Forall (fun x => ~ In (tk_ty x) (rule_names text ds)) w ->
  (exists v, parses t (map sent w) maps (POk (Val v)) /\ means_file text code ds start w v) \/
  ((exists e, parses t (map sent w) maps (PErr e)) /\ forall v, ~ means_file text code ds start w v).
Proof.
  intros Hg Hm Hk Heof Hfr Hco Hu w Hw. pose proof (gen_means start eof g k t Hg Hm Hk Heof Hfr Hco w) as G.
  destruct (proj1 (acyclic_total dbg start eof rules g (proj1 (sum_expansion text order Ho dbg ts ds b es Hr Hf He)) Hg k t Hm (proj2 (names_term eof) Heof) Hu) _ maps (map sent w) gen_covers) as ([m|e] & Hps).
  - rewrite map_map. apply Forall_forall. intros x Hx. apply in_map_iff in Hx as (y & <- & Hy). apply names_term. simpl. rewrite Forall_forall in Hw. now apply Hw.
  - left. destruct (proj1 (G m) Hps) as (v & -> & Hv). eauto.
  - right. split; [eauto|]. intros v Hv. assert (P : parses t (map sent w) maps (POk (Val v))) by (apply G; eauto).
    pose proof (proj2 (proj2 (deterministic dbg g)) t _ _ _ _ _ Hps P) as D. discriminate D.
Qed.
End S.
