(** Which declarations an alias reaches. *)
From Coq Require Import List Bool Arith Lia String Permutation.
From Verif Require Import BTree Model Strings Wop WopSpec Spec WopExport.
Import ListNotations.
Local Open Scope list_scope.

Section A.
Variable text : span -> string.
Lemma resolve_app ds1 ds2 s : ~ In (text s) (alias_keys text ds2) -> resolve text (ds1 ++ ds2) s = resolve text ds1 s.
Proof.
  intros N. assert (B : resolve text ds2 s = s).
  { induction ds2 as [|[n t a|i|k a] ds IH]; simpl in *; auto. destruct (String.eqb_spec (text k) (text s)) as [E|_]; [destruct N; left; auto|]. apply IH. tauto. }
  induction ds1 as [|[n t a|i|k a] ds IH]; simpl; auto. now rewrite IH.
Qed.
Lemma resolve_none ds s : ~ In (text s) (alias_keys text ds) -> resolve text ds s = s.
Proof. exact (resolve_app [] ds s). Qed.
Lemma alias_keys_app ds1 ds2 : alias_keys text (ds1 ++ ds2) = alias_keys text ds1 ++ alias_keys text ds2.
Proof. unfold alias_keys. apply flat_map_app. Qed.

Variable order : prod_build -> list prod_build -> list span -> list span.
Hypothesis Ho : iterates order.
Variable dbg : bool.

(** a rule without a symbol whose alias is declared behind it *)
Theorem aliases_everywhere ts ds b es : reads text order dbg ts (Val (inl b)) -> file_toks ts ds -> Permutation es (dump_grammar text b) ->
  forall ds1 name ty alts ds2, ds = ds1 ++ DRule name ty alts :: ds2 ->
    (forall r s, In r (flat_map (fun alt => expand (fst alt)) alts) -> In s r -> ~ In (text s) (alias_keys text ds2)) ->
    forall i w, prod_at (grammar_map es) (text name) i w <->
      exists r, nth_error (flat_map (fun alt => expand (fst alt)) alts) i = Some r /\ w = map (fun s => text (resolve text ds s)) r.
Proof.
  intros Hr Hf Hp ds1 name ty alts ds2 E N i w. destruct (emitted text order dbg Ho ts ds b es Hr Hf Hp) as (_ & _ & H). rewrite (H _ _ _ _ _ E).
  assert (M : forall r, In r (flat_map (fun alt => expand (fst alt)) alts) -> map (fun s => text (resolve text ds1 s)) r = map (fun s => text (resolve text ds s)) r).
  { intros r Hin. apply map_ext_in. intros s Hs. rewrite E. f_equal. symmetry. apply resolve_app. exact (N r s Hin Hs). }
  split; intros (r & Hn & ->); exists r; (split; [exact Hn|]); rewrite (M r) by (eapply nth_error_In; eauto); reflexivity.
Qed.
(** without aliases for names of rules, a symbol that is the name of a rule stays that name *)
Theorem rules_stay ts ds b es : reads text order dbg ts (Val (inl b)) -> file_toks ts ds -> Permutation es (dump_grammar text b) ->
  (forall n, In n (alias_keys text ds) -> ~ In n (rule_names text ds)) ->
  forall ds1 name ty alts ds2, ds = ds1 ++ DRule name ty alts :: ds2 ->
    forall i r, nth_error (flat_map (fun alt => expand (fst alt)) alts) i = Some r ->
      exists w, prod_at (grammar_map es) (text name) i w /\ List.length w = List.length r /\
        forall k s, nth_error r k = Some s -> In (text s) (rule_names text ds) -> nth_error w k = Some (text s).
Proof.
  intros Hr Hf Hp N ds1 name ty alts ds2 E i r Hn. destruct (emitted text order dbg Ho ts ds b es Hr Hf Hp) as (_ & _ & H).
  exists (map (fun s => text (resolve text ds1 s)) r). split; [apply (H _ _ _ _ _ E); eauto|]. split; [apply map_length|].
  intros k s Hk Hs. rewrite nth_error_map, Hk. simpl. do 2 f_equal. apply resolve_none. intros Hin. apply (N (text s)); auto. rewrite E, alias_keys_app. apply in_or_app. now left.
Qed.

Lemma resolve_app_some ds1 ds2 s tk a : In (DAlias tk a) ds2 -> NoDup (alias_keys text (ds1 ++ ds2)) -> text tk = text s ->
  resolve text ds1 s = s /\ resolve text (ds1 ++ ds2) s = a.
Proof.
  intros Hin Nd Et.
  assert (K : forall ds, In (DAlias tk a) ds -> In (text tk) (alias_keys text ds)) by (intros ds H; apply in_flat_map; eexists; split; [exact H|now left]).
  assert (N1 : ~ In (text s) (alias_keys text ds1)).
  { rewrite <- Et. intros H. rewrite alias_keys_app in Nd. clear - H Hin Nd K. apply K in Hin. revert H Hin Nd. generalize (alias_keys text ds1), (alias_keys text ds2), (text tk).
    intros l1 l2 x H H2 Nd. induction l1 as [|y l1 IH]; [destruct H|]. simpl in Nd. inversion Nd as [|? ? Ny Nd']; subst. destruct H as [->|H]; [|auto]. apply Ny. apply in_or_app. now right. }
  split; [now apply resolve_none|].
  assert (B : resolve text ds2 s = a).
  { rewrite alias_keys_app in Nd. assert (Nd2 : NoDup (alias_keys text ds2)) by (clear - Nd; induction (alias_keys text ds1); auto; inversion Nd; auto).
    clear - Hin Nd2 Et K. induction ds2 as [|[n t x|i|k x] ds IH]; [destruct Hin|..]; simpl in Hin; (destruct Hin as [E|Hin]; [try discriminate E|]); simpl in *; auto.
    - injection E as -> ->. apply String.eqb_eq in Et. now rewrite Et.
    - inversion Nd2 as [|? ? Nk Nd']; subst. destruct (String.eqb_spec (text k) (text s)) as [E|_]; [|auto]. destruct Nk. rewrite E, <- Et. now apply K. }
  clear - B N1. induction ds1 as [|[n t x|i|k x] ds IH]; simpl in *; auto. destruct (String.eqb_spec (text k) (text s)) as [E|_]; [destruct N1; now left|]. apply IH. tauto.
Qed.

Lemma resolve_cases ds s : resolve text ds s = s \/ exists tk, In (DAlias tk (resolve text ds s)) ds /\ text tk = text s.
Proof.
  induction ds as [|[n t x|i|k x] ds IH]; simpl; auto; try (destruct IH as [IH|(tk & H & E)]; [now left|right; exists tk; auto]).
  destruct (String.eqb_spec (text k) (text s)) as [E|_]; [right; exists k; auto|]. destruct IH as [IH|(tk & H & E)]; [now left|right; exists tk; auto].
Qed.

(** exactly the rules without a symbol that an alias declared behind them gives another text *)
Theorem aliases_exact ts ds b es : reads text order dbg ts (Val (inl b)) -> file_toks ts ds -> Permutation es (dump_grammar text b) ->
  forall ds1 name ty alts ds2, ds = ds1 ++ DRule name ty alts :: ds2 ->
    (forall i w, prod_at (grammar_map es) (text name) i w <->
      exists r, nth_error (flat_map (fun alt => expand (fst alt)) alts) i = Some r /\ w = map (fun s => text (resolve text ds s)) r) <->
    (forall r s tk a, In r (flat_map (fun alt => expand (fst alt)) alts) -> In s r -> In (DAlias tk a) ds2 -> text tk = text s -> text a = text s).
Proof.
  intros Hr Hf Hp ds1 name ty alts ds2 E. destruct (emitted text order dbg Ho ts ds b es Hr Hf Hp) as (_ & _ & H). specialize (H _ _ _ _ _ E).
  destruct (reads_file text order dbg Ho ts ds b Hr Hf) as ((_ & Nd & _) & _). rewrite E in Nd. split.
  - intros P r s tk a Hin Hs Ha Et. apply In_nth_error in Hin as (i & Hn).
    destruct (proj1 (P i _) (proj2 (H i _) (ex_intro _ r (conj Hn eq_refl)))) as (r' & Hn' & Em). assert (r' = r) as -> by congruence.
    destruct (resolve_app_some ds1 (DRule name ty alts :: ds2) s tk a (or_intror Ha) Nd Et) as (R1 & R2). rewrite <- E in R2.
    apply (ext_in_map) with (a := s) in Em; auto. now rewrite R1, R2 in Em.
  - intros P i w. rewrite H.
    assert (M : forall r, In r (flat_map (fun alt => expand (fst alt)) alts) -> map (fun s => text (resolve text ds1 s)) r = map (fun s => text (resolve text ds s)) r).
    { intros r Hin. apply map_ext_in. intros s Hs. destruct (in_dec string_dec (text s) (alias_keys text ds2)) as [Hk|Hk].
      - apply in_flat_map in Hk as ([n t x|j|tk a] & Ha & Hk); simpl in Hk; try contradiction. destruct Hk as [Et|[]].
        destruct (resolve_app_some ds1 (DRule name ty alts :: ds2) s tk a (or_intror Ha) Nd Et) as (R1 & R2). rewrite <- E in R2. rewrite R1, R2. symmetry. eapply P; eauto.
      - rewrite E. f_equal. symmetry. now apply resolve_app. }
    split; intros (r & Hn & ->); exists r; (split; [exact Hn|]); rewrite (M r) by (eapply nth_error_In; eauto); reflexivity.
Qed.

(** exactly where no alias declared before the rule gives a symbol that is the name of a rule another text *)
Theorem rules_exact ts ds b es : reads text order dbg ts (Val (inl b)) -> file_toks ts ds -> Permutation es (dump_grammar text b) ->
  forall ds1 name ty alts ds2, ds = ds1 ++ DRule name ty alts :: ds2 ->
    (forall i r w k s, nth_error (flat_map (fun alt => expand (fst alt)) alts) i = Some r -> prod_at (grammar_map es) (text name) i w ->
       nth_error r k = Some s -> In (text s) (rule_names text ds) -> nth_error w k = Some (text s)) <->
    (forall r s tk a, In r (flat_map (fun alt => expand (fst alt)) alts) -> In s r -> In (text s) (rule_names text ds) ->
       In (DAlias tk a) ds1 -> text tk = text s -> text a = text s).
Proof.
  intros Hr Hf Hp ds1 name ty alts ds2 E. destruct (emitted text order dbg Ho ts ds b es Hr Hf Hp) as (_ & _ & H). specialize (H _ _ _ _ _ E).
  destruct (reads_file text order dbg Ho ts ds b Hr Hf) as ((_ & Nd & _) & _). rewrite E, alias_keys_app in Nd. split.
  - intros P r s tk a Hin Hs Hn Ha Et. apply In_nth_error in Hin as (i & Hi). apply In_nth_error in Hs as (k & Hk).
    pose proof (P i r _ k s Hi (proj2 (H i _) (ex_intro _ r (conj Hi eq_refl))) Hk Hn) as Q. rewrite nth_error_map, Hk in Q. injection Q as Q.
    assert (Nd1 : NoDup (alias_keys text ([] ++ ds1))).
    { simpl. clear - Nd. induction (alias_keys text ds1) as [|x l IH]; constructor; inversion Nd; subst; auto. intros Hx. apply H1. apply in_or_app. now left. }
    destruct (resolve_app_some [] ds1 s tk a Ha Nd1 Et) as (_ & R2). simpl in R2. now rewrite R2 in Q.
  - intros P i r w k s Hi Hw Hk Hn. apply H in Hw as (r' & Hi' & ->). assert (r' = r) as -> by congruence. rewrite nth_error_map, Hk. cbn [option_map]. f_equal.
    destruct (resolve_cases ds1 s) as [->|(tk & Ha & Et)]; [reflexivity|]. eapply P; eauto using nth_error_In.
Qed.
End A.
