(** Proofs about the emitted code: [dump_grammar] and [dump_reductor] (Wop.v). *)
From Coq Require Import List Bool Arith Ascii String Permutation Lia.
From Verif Require Import BTree Model Strings Base Spec SpecP Mono Wop WopSpec WopP WopProc.
Import ListNotations.
Local Open Scope list_scope.
Local Open Scope nat_scope.

(** ** code blocks *)
Lemma substring_all s : substring 0 (String.length s) s = s.
Proof. induction s as [|a s IH]; simpl; [reflexivity|]. now rewrite IH. Qed.
Lemma strip_suffix_spec c s b : strip_suffix c s = Some b <-> s = (b ++ String c "")%string.
Proof.
  revert b. induction s as [|a s IH]; intros b; simpl.
  - split; [discriminate|]. now destruct b.
  - destruct s as [|a' s].
    + destruct (Ascii.eqb_spec a c) as [->|N]; split.
      * now intros [= <-].
      * destruct b as [|x b]; [reflexivity|]. simpl. intros [= -> E]. now destruct b.
      * discriminate.
      * destruct b as [|x b]; simpl; [intros [= E]; congruence|]. intros [= -> E]. now destruct b.
    + split.
      * destruct (strip_suffix c (String a' s)) as [b'|] eqn:E; [|discriminate]. intros [= <-]. simpl. now rewrite (proj1 (IH b') eq_refl).
      * destruct b as [|x b]; simpl; [discriminate|]. intros [= -> E]. apply IH in E. simpl in E. now rewrite E.
Qed.
Lemma prefix_arrow s : String.prefix "->" s = true <-> exists s', s = ("->" ++ s')%string.
Proof.
  Local Opaque ascii_dec.
  split.
  - destruct s as [|c1 [|c2 s]]; simpl; [discriminate| |].
    + destruct (ascii_dec "-" c1); discriminate.
    + destruct (ascii_dec "-" c1) as [<-|]; [|discriminate]. destruct (ascii_dec ">" c2) as [<-|]; [|discriminate]. intros _. now exists s.
  - intros (s' & ->). simpl. destruct (ascii_dec "-" "-"); [|congruence]. destruct (ascii_dec ">" ">"); [|congruence]. now destruct s'.
Qed.
Lemma code_body_spec s b : code_body s = Val b <-> s = ("->" ++ b ++ "%")%string.
Proof.
  unfold code_body, strip_prefix. split.
  - destruct (String.prefix "->" s) eqn:E; [|discriminate]. apply prefix_arrow in E. destruct E as (s' & ->).
    simpl. rewrite Nat.sub_0_r, substring_all. destruct (strip_suffix "%" s') as [b'|] eqn:E; cbn [expect]; [|discriminate]. intros [= <-].
    apply strip_suffix_spec in E. now rewrite E.
  - intros ->. rewrite (proj2 (prefix_arrow _)) by eauto. simpl. rewrite Nat.sub_0_r, substring_all. rewrite (proj2 (strip_suffix_spec _ _ b) eq_refl). reflexivity.
Qed.

(** ** maps built by insertion, in any order *)
Lemma of_list_get {K V} {OK : Ord K} (l : list (K * V)) k v : NoDup (map fst l) -> (bm_get k (bm_of_list l) = Some v <-> In (k, v) l).
Proof.
  intros N. split; [apply bm_of_list_get|]. intros H.
  assert (Hk : In k (bm_keys (bm_of_list l))) by (apply bm_of_list_mem; now apply (in_map fst) in H).
  apply bm_get_keys in Hk. destruct Hk as (v' & Hk). rewrite Hk. apply bm_of_list_get in Hk. f_equal.
  clear - N H Hk. induction l as [|[a b] l IH]; [easy|]. simpl in N. inversion N as [|? ? Ha N']; subst.
  destruct H as [H|H], Hk as [Hk|Hk]; auto.
  - congruence.
  - injection H as -> ->. exfalso. apply Ha. now apply (in_map fst) in Hk.
  - injection Hk as -> ->. exfalso. apply Ha. now apply (in_map fst) in H.
Qed.
Lemma grammar_map_of_list {T} {OT : Ord T} (l : list (T * list (list T))) : grammar_map l = bm_of_list (map (fun e => (fst e, rule_new (fst e) (snd e))) l).
Proof.
  unfold grammar_map, bm_of_list. generalize (@nil (T * rule T)). induction l as [|e l IH]; intros m; simpl; [reflexivity|]. apply IH.
Qed.
Lemma grammar_map_get {T} {OT : Ord T} (l : list (T * list (list T))) A i w : NoDup (map fst l) ->
  (prod_at (grammar_map l) A i w <-> exists ps, In (A, ps) l /\ nth_error ps i = Some w).
Proof.
  intros N. unfold prod_at. rewrite grammar_map_of_list. 
  assert (N' : NoDup (map fst (map (fun e : T * list (list T) => (fst e, rule_new (fst e) (snd e))) l))) by (rewrite map_map; exact N).
  split.
  - intros (r & k & Hr & Hi). rewrite of_list_get, in_map_iff in Hr by exact N'. destruct Hr as ([B ps] & [= -> <-] & Hp).
    assert (En : nth_error (r_prods (rule_new A ps)) i = match nth_error ps i with Some x => Some (x, 0 + i) | None => None end) by exact (enum_from_nth ps 0 i).
    rewrite En in Hi. destruct (nth_error ps i) eqn:E; [|discriminate]. injection Hi as -> _. eauto.
  - intros (ps & Hp & Hi). exists (rule_new A ps), i. rewrite of_list_get by exact N'. split.
    + rewrite in_map_iff. now exists (A, ps).
    + assert (En : nth_error (r_prods (rule_new A ps)) i = match nth_error ps i with Some x => Some (x, 0 + i) | None => None end) by exact (enum_from_nth ps 0 i).
      now rewrite En, Hi.
Qed.

Lemma mapM_val {A B} (f : A -> res B) l m : mapM f l = Val m <-> Forall2 (fun a b => f a = Val b) l m.
Proof.
  revert m. induction l as [|a l IH]; intros m; simpl.
  - split; [intros [= <-]; constructor|intros H; now inversion H].
  - destruct (f a) as [b| |] eqn:E; cbn [bind].
    + destruct (mapM f l) as [ms| |]; cbn [bind].
      * split.
        -- intros [= <-]. constructor; [easy|]. now apply IH.
        -- intros H. inversion H as [|? b' ? m' Hb Hm]; subst. apply IH in Hm. congruence.
      * split; [discriminate|]. intros H. inversion H as [|? b' ? m' Hb Hm]; subst. apply IH in Hm. discriminate.
      * split; [discriminate|]. intros H. inversion H as [|? b' ? m' Hb Hm]; subst. apply IH in Hm. discriminate.
    + split; [discriminate|]. intros H. inversion H. congruence.
    + split; [discriminate|]. intros H. inversion H. congruence.
Qed.
Lemma mapM_total {A B} (f : A -> res B) l : (exists m, mapM f l = Val m) <-> forall a, In a l -> exists b, f a = Val b.
Proof.
  split.
  - intros (m & E) a Ha. apply mapM_val in E. destruct (Forall2_in_l_ex _ _ _ _ E Ha) as (b & _ & H). eauto.
  - induction l as [|a l IH]; intros H; [now exists []|]. destruct (H a (or_introl eq_refl)) as (b & Hb).
    destruct IH as (m & Hm); [auto using in_cons|]. exists (b :: m). simpl. now rewrite Hb, Hm.
Qed.
Lemma Forall2_nth {A B} (R : A -> B -> Prop) l m i a : Forall2 R l m -> nth_error l i = Some a -> exists b, nth_error m i = Some b /\ R a b.
Proof. intros F. revert i. induction F; intros [|i]; simpl; try discriminate; [intros [= <-]; eauto|auto]. Qed.
Lemma Forall2_nth_r {A B} (R : A -> B -> Prop) l m i b : Forall2 R l m -> nth_error m i = Some b -> exists a, nth_error l i = Some a /\ R a b.
Proof. intros F. revert i. induction F; intros [|i]; simpl; try discriminate; [intros [= <-]; eauto|auto]. Qed.

Section D.
Variable text : span -> string.

(** the emitted productions *)
Theorem dump_grammar_spec b es : msorted (b_rules b) -> Permutation es (dump_grammar text b) ->
  wf_rules (grammar_map es) /\
  forall name i w, prod_at (grammar_map es) name i w <->
    exists prods p, bm_get name (b_rules b) = Some prods /\ nth_error prods i = Some p /\ w = map text (pb_production p).
Proof.
  intros Hs Hp. split; [apply grammar_map_wf|]. intros name i w.
  assert (N : NoDup (map fst es)).
  { eapply Permutation_NoDup; [apply Permutation_map; symmetry; exact Hp|]. unfold dump_grammar. rewrite map_map. simpl. apply sorted_NoDup. exact Hs. }
  rewrite grammar_map_get by exact N. split.
  - intros (ps & Hin & Hi). apply (Permutation_in _ Hp) in Hin. unfold dump_grammar in Hin. rewrite in_map_iff in Hin.
    destruct Hin as ([n prods] & [= <- <-] & Hin). unfold dump_rule in Hi. rewrite nth_error_map in Hi.
    destruct (nth_error prods i) as [p|] eqn:E; [|discriminate]. injection Hi as <-. exists prods, p. split; [now apply bm_in_get|auto].
  - intros (prods & p & Hg & Hi & ->). apply bm_get_in in Hg. exists (dump_rule text prods). split.
    + apply (Permutation_in _ (Permutation_sym Hp)). unfold dump_grammar. rewrite in_map_iff. now exists (name, prods).
    + unfold dump_rule. now rewrite nth_error_map, Hi.
Qed.

(** the emitted reductors *)
Theorem dump_reductor_spec b rs rs' : msorted (b_rules b) -> dump_reductor text b = Val rs -> Permutation rs' rs ->
  forall name prods, bm_get name (b_rules b) = Some prods ->
  exists fs, bm_get name (bm_of_list rs') = Some fs /\ List.length fs = List.length prods /\
    forall i p, nth_error prods i = Some p -> exists c, nth_error fs i = Some (map (write_alias text) (pb_aliases p), c) /\ text (pb_codeblock p) = ("->" ++ c ++ "%")%string.
Proof.
  intros Hs E Hp name prods Hg. unfold dump_reductor in E. apply mapM_val in E.
  assert (Hk : map fst rs = map fst (b_rules b)).
  { clear - E. induction E as [|a c l m Ha _ IH]; simpl; [reflexivity|]. rewrite IH. f_equal.
    destruct (dump_reductors text (snd a)) eqn:Ed; cbn [bind] in Ha; try discriminate. now injection Ha as <-. }
  assert (N : NoDup (map fst rs')).
  { eapply Permutation_NoDup; [apply Permutation_map; symmetry; exact Hp|]. rewrite Hk. apply sorted_NoDup. exact Hs. }
  pose proof (bm_get_in _ _ _ Hg) as Hin. destruct (Forall2_in_l_ex _ _ _ _ E Hin) as ([n fs] & Hfs & Ef). simpl in Ef.
  destruct (dump_reductors text prods) as [fs'| |] eqn:Ed; cbn [bind] in Ef; try discriminate. injection Ef as <- ->.
  exists fs. split; [rewrite of_list_get by exact N; now apply (Permutation_in _ (Permutation_sym Hp))|].
  unfold dump_reductors in Ed. destruct (nth_error prods 0); cbn [expect bind] in Ed; [|discriminate]. apply mapM_val in Ed.
  split; [symmetry; eapply Forall2_len; exact Ed|]. intros i q Hi. destruct (Forall2_nth _ _ _ _ _ Ed Hi) as (f & Hf & Eq).
  destruct (code_body (text (pb_codeblock q))) as [c| |] eqn:Ec; cbn [bind] in Eq; try discriminate. injection Eq as <-.
  exists c. split; [exact Hf|]. now apply code_body_spec.
Qed.

(** emitting the reductors panics exactly on a rule without productions or a malformed code block *)
Theorem dump_reductor_total b : msorted (b_rules b) ->
  ((exists rs, dump_reductor text b = Val rs) <->
   forall name prods, bm_get name (b_rules b) = Some prods -> prods <> [] /\ forall p, In p prods -> exists c, text (pb_codeblock p) = ("->" ++ c ++ "%")%string).
Proof.
  intros Hs. unfold dump_reductor. rewrite mapM_total.
  assert (H1 : forall prods : list prod_build, (exists r, dump_reductors text prods = Val r) <-> prods <> [] /\ forall p, In p prods -> exists c, text (pb_codeblock p) = ("->" ++ c ++ "%")%string).
  { intros prods. unfold dump_reductors. destruct prods as [|p0 ps]; [split; [intros (r & E); discriminate|intros [H _]; easy]|].
    cbn [nth_error expect bind]. rewrite mapM_total. split.
    - intros H. split; [easy|]. intros p Hp. destruct (H p Hp) as (x & Hx). destruct (code_body _) as [c| |] eqn:Ec; cbn [bind] in Hx; try discriminate.
      exists c. now apply code_body_spec.
    - intros [_ H] p Hp. destruct (H p Hp) as (c & Hc). apply code_body_spec in Hc. rewrite Hc. cbn [bind]. eauto. }
  split.
  - intros H name prods Hg. apply H1. apply bm_get_in in Hg. destruct (H _ Hg) as (x & Hx). simpl in Hx.
    destruct (dump_reductors text prods) as [r| |]; cbn [bind] in Hx; try discriminate. eauto.
  - intros H [name prods] Hin. simpl. apply bm_in_get in Hin; [|exact Hs]. apply H in Hin. apply H1 in Hin. destruct Hin as (r & ->). cbn [bind]. eauto.
Qed.
End D.
