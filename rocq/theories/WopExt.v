(** The builder looks only at the source text of the spans in the tree. *)
From Coq Require Import List Bool Arith Lia String Permutation.
From Verif Require Import BTree Model Base Wop WopSpec WopLex WopText WopPrint WopPrintSpec.
Import ListNotations.
Local Open Scope list_scope.

(** induction on trees *)
Section Ind.
Variable P : gramem -> Prop.
Hypothesis H : forall g, (forall h, In h (children g) -> P h) -> P g.
Fixpoint tree_ind (a : ast) : forall sp ty, P (mkTok (a, sp) ty) :=
  let all := fix all (l : list gramem) : forall h, In h l -> P h :=
    match l with
    | [] => fun h Hh => False_ind _ Hh
    | mkTok (a', s') t' :: l' => fun h Hh => match Hh with or_introl E => eq_ind _ P (tree_ind a' s' t') _ E | or_intror Hh => all l' h Hh end
    end in
  let pipes := fix pipes (l : list (list gramem * span)) : forall h, In h (flat_map fst l) -> P h :=
    match l with
    | [] => fun h Hh => False_ind _ Hh
    | (x, c) :: l' => fun h Hh => match in_app_or _ _ _ Hh with or_introl Hh => all x h Hh | or_intror Hh => pipes l' h Hh end
    end in
  fun sp ty => H (mkTok (a, sp) ty)
    (match a as a' return forall h, In h (children (mkTok (a', sp) ty)) -> P h with
     | AEntryPoint (mkTok (a', s') t') => fun h Hh => match Hh with or_introl E => eq_ind _ P (tree_ind a' s' t') _ E | or_intror Hh => False_ind _ Hh end
     | AProgram l => all l
     | ARuleDecl _ _ rule => pipes rule
     | ARule l => pipes l
     | ARulePipe l => all l
     | ARuleItem (mkTok (a', s') t') _ _ _ => fun h Hh => match Hh with or_introl E => eq_ind _ P (tree_ind a' s' t') _ E | or_intror Hh => False_ind _ Hh end
     | AToken _ | AImport _ | AAlias _ _ | AIdentPath _ => fun h Hh => False_ind _ Hh
     end).
Lemma gramem_ind g : P g.
Proof. destruct g as [[a sp] ty]. apply tree_ind. Qed.
End Ind.

Section Ext.
Variable P : span -> Prop.
Variables text text' : span -> string.
Hypothesis Et : forall s, P s -> text s = text' s.
Variable order : prod_build -> list prod_build -> list span -> list span.
Hypothesis Ho : iterates order.

(** all spans in the tree, in a production, in a builder *)
Definition all_in (g : gramem) : Prop := forall h, inside h g -> P (g_span h) /\ Forall P (references h).
Definition pb_ok (p : prod_build) : Prop := Forall P (pb_production p) /\ P (pb_codeblock p) /\ P (pb_ty p) /\ Forall (fun a => P (a_alias a)) (pb_aliases p).
Definition b_ok (b : builder) : Prop := (forall k v, bm_get k (b_aliases b) = Some v -> P v) /\ Forall (fun e => Forall pb_ok (snd e)) (b_rules b) /\ Forall P (b_imports b).
Lemma all_children g h : all_in g -> In h (children g) -> all_in h.
Proof. intros Hg Hc x Hx. apply Hg. eapply inside_child; eauto. Qed.
Lemma all_here g : all_in g -> P (g_span g) /\ Forall P (references g).
Proof. intros Hg. apply Hg. constructor. Qed.

Definition same {A} (Q : A -> Prop) (r r' : res A) : Prop := r = r' /\ forall a, r = Val a -> Q a.
Lemma same_val {A} (Q : A -> Prop) a : Q a -> same Q (Val a) (Val a).
Proof. intros H. split; auto. intros b [= <-]. auto. Qed.
Lemma same_panic {A} (Q : A -> Prop) p : same Q (Panic p) (Panic p).
Proof. split; auto. discriminate. Qed.
Lemma same_fuel {A} (Q : A -> Prop) : same Q Fuel Fuel.
Proof. split; auto. discriminate. Qed.
Lemma same_bind {A B} (Q : A -> Prop) (R : B -> Prop) r r' f f' : same Q r r' -> (forall a, Q a -> same R (f a) (f' a)) -> same R (bind r f) (bind r' f').
Proof. intros [<- H] Hf. destruct r as [a|p|]; simpl; [apply Hf; auto|apply same_panic|apply same_fuel]. Qed.
Lemma same_mapM {A B} (Q : B -> Prop) (f f' : A -> res B) l : (forall a, In a l -> same Q (f a) (f' a)) -> same (Forall Q) (mapM f l) (mapM f' l).
Proof.
  induction l as [|a l IH]; intros H; [apply same_val; constructor|]. cbn [mapM]. eapply same_bind; [apply H; now left|]. intros b Hb.
  eapply same_bind; [apply IH; intros x Hx; apply H; now right|]. intros bs Hbs. apply same_val. now constructor.
Qed.
Lemma same_foldM {A B} (Q : B -> Prop) (f f' : B -> A -> res B) l : (forall a b, In a l -> Q b -> same Q (f b a) (f' b a)) -> forall b, Q b -> same Q (foldM f l b) (foldM f' l b).
Proof.
  induction l as [|a l IH]; intros H b Hb; [now apply same_val|]. cbn [foldM]. eapply same_bind; [apply H; [now left|auto]|]. intros b' Hb'. apply IH; auto. intros x y Hx. apply H. now right.
Qed.
Lemma same_expect {A} (Q : A -> Prop) p o : (forall a, o = Some a -> Q a) -> same Q (expect p o) (expect p o).
Proof. intros H. destruct o; simpl; [apply same_val; auto|apply same_panic]. Qed.

Lemma map_last_all {A} (Q : A -> Prop) f (l l' : list A) : (forall a, Q a -> Q (f a)) -> Forall Q l -> map_last f l = Val l' -> Forall Q l'.
Proof.
  intros Hf. revert l'. induction l as [|a l IH]; intros l' Hl E; [discriminate|]. inversion Hl; subst. destruct l as [|b l].
  - simpl in E. injection E as <-. constructor; auto.
  - cbn [map_last] in E. apply bind_val in E as (m & Em & E). injection E as <-. constructor; auto.
Qed.
Lemma map_first_all {A} (Q : A -> Prop) p f (l l' : list A) : (forall a, Q a -> Q (f a)) -> Forall Q l -> map_first p f l = Some l' -> Forall Q l'.
Proof.
  intros Hf. revert l'. induction l as [|a l IH]; intros l' Hl E; [discriminate|]. inversion Hl; subst. simpl in E. destruct (p a); [injection E as <-; constructor; auto|].
  destruct (map_first p f l) as [m|]; [|discriminate]. injection E as <-. constructor; auto.
Qed.
Lemma map_first_ext {A} (p q : A -> bool) f (l : list A) : (forall a, In a l -> p a = q a) -> map_first p f l = map_first q f l.
Proof. induction l as [|a l IH]; intros H; simpl; [reflexivity|]. rewrite (H a) by now left. destruct (q a); [reflexivity|]. now rewrite IH by (intros x Hx; apply H; now right). Qed.
Lemma same_last (Q : item_alias -> Prop) f (l : list item_alias) : (forall a, Q a -> Q (f a)) -> Forall Q l -> same (Forall Q) (map_last f l) (map_last f l).
Proof. intros Hf Hl. split; auto. intros l' E. eapply map_last_all; eauto. Qed.

Lemma sub_alias_same p n : pb_ok p -> P n -> sub_alias text p n = sub_alias text' p n /\ pb_ok (sub_alias text p n).
Proof.
  intros (H1 & H2 & H3 & H4) Hn. unfold sub_alias.
  rewrite (map_first_ext (fun a => String.eqb (text (a_alias a)) (text n)) (fun a => String.eqb (text' (a_alias a)) (text' n))).
  2:{ intros a Ha. rewrite Forall_forall in H4. now rewrite !Et by auto. }
  split; [reflexivity|]. destruct (map_first _ _ _) as [l|] eqn:E; (split; [exact H1|]; split; [exact H2|]; split; [exact H3|]).
  - simpl. eapply map_first_all; [|exact H4|exact E]. auto.
  - simpl. apply Forall_app. split; auto.
Qed.
Lemma sub_aliases_same ns : forall p, pb_ok p -> Forall P ns -> fold_left (sub_alias text) ns p = fold_left (sub_alias text') ns p /\ pb_ok (fold_left (sub_alias text) ns p).
Proof.
  induction ns as [|n ns IH]; intros p Hp Hn; [auto|]. inversion Hn; subst. cbn [fold_left]. destruct (sub_alias_same p n) as [E Hq]; auto. rewrite <- E. apply IH; auto.
Qed.
Lemma dedup_incl l : incl (dedup l) l.
Proof. induction l as [|a l IH]; simpl; [easy|]. destruct (existsb _ l); intros x Hx; [right; auto|]. destruct Hx as [->|Hx]; [now left|right; auto]. Qed.
Lemma set_sub_same base ps : Forall pb_ok ps -> set_sub_aliases text order base ps = set_sub_aliases text' order base ps /\ Forall pb_ok (set_sub_aliases text order base ps).
Proof.
  intros Hps. unfold set_sub_aliases. set (l := filter _ _). assert (Hl : Forall P (order base ps l)).
  { apply Forall_forall. intros s Hs. apply (Permutation_in _ (Ho base ps l)) in Hs. apply filter_In in Hs as [Hs _]. apply dedup_incl in Hs. apply in_map_iff in Hs as (a & <- & Ha).
    apply in_flat_map in Ha as (p & Hp & Ha). rewrite Forall_forall in Hps. destruct (Hps _ Hp) as (_ & _ & _ & H4). rewrite Forall_forall in H4. auto. }
  split.
  - apply map_ext_in. intros p Hp. rewrite Forall_forall in Hps. apply sub_aliases_same; auto.
  - apply Forall_forall. intros q Hq. apply in_map_iff in Hq as (p & <- & Hp). rewrite Forall_forall in Hps. apply sub_aliases_same; auto.
Qed.
Lemma add_missing_ok c l : forall p, pb_ok p -> Forall (fun a => P (a_alias a)) l -> pb_ok (fold_left (add_missing c) l p).
Proof.
  induction l as [|a l IH]; intros p Hp Hl; [auto|]. inversion Hl; subst. cbn [fold_left]. apply IH; auto. unfold add_missing. destruct (existsb _ _); [auto|].
  destruct Hp as (H3 & H4 & H5 & H6). split; [auto|]. split; [auto|]. split; [auto|]. simpl. apply Forall_app. auto.
Qed.
Lemma with_ok p l : pb_ok p -> Forall (fun a => P (a_alias a)) l -> pb_ok (with_aliases p l).
Proof. intros (H1 & H2 & H3 & _) Hl. repeat (split; [auto|]). exact Hl. Qed.

Variable defs : bmap string span.
Hypothesis Hdefs : forall k v, bm_get k defs = Some v -> P v.
Lemma definition_same s : P s -> definition text defs s = definition text' defs s /\ P (definition text defs s).
Proof. intros Hs. unfold definition. rewrite (Et s Hs). split; [reflexivity|]. destruct (bm_get (text' s) defs) eqn:E; eauto. Qed.

Lemma concat_ok ll : Forall (Forall pb_ok) ll -> Forall pb_ok (List.concat ll).
Proof. induction 1; simpl; [constructor|]. apply Forall_app. auto. Qed.

Lemma single_same fuel : forall prod pipe, pb_ok prod -> Forall all_in pipe -> same (Forall pb_ok) (single text order defs fuel prod pipe) (single text' order defs fuel prod pipe).
Proof.
  induction fuel as [|n IH]; intros prod pipe Hp Hall; [apply same_fuel|].
  assert (Many : forall l rest, Forall pb_ok l -> Forall all_in rest ->
    same (Forall pb_ok) (match rest with [] => Val l | _ => do ll <- mapM (fun o => single text order defs n o rest) l; Val (List.concat ll) end)
                        (match rest with [] => Val l | _ => do ll <- mapM (fun o => single text' order defs n o rest) l; Val (List.concat ll) end)).
  { intros l rest Hl Hr. assert (same (Forall pb_ok) (do ll <- mapM (fun o => single text order defs n o rest) l; Val (List.concat ll)) (do ll <- mapM (fun o => single text' order defs n o rest) l; Val (List.concat ll))) as Hs.
    { eapply same_bind; [apply (same_mapM (Forall pb_ok)); intros o Hi; apply IH; auto; rewrite Forall_forall in Hl; auto|]. intros ll Hll. apply same_val. now apply concat_ok. }
    destruct rest; [now apply same_val|exact Hs]. }
  destruct pipe as [|g rest]; [apply same_val; auto|]. inversion Hall as [|? ? Hg Hrest]; subst. cbn [single].
  destruct (g_ast g) as [s|x|l|i t r|l|l|item opt alias cl|s|tk al|s] eqn:Eg; try apply same_panic.
  assert (Hitem : all_in item). { apply (all_children g); auto. unfold children. rewrite Eg. now left. }
  assert (Hal : Forall P (opt_span alias)). { destruct (all_here g Hg) as [_ Hr]. unfold references in Hr. now rewrite Eg in Hr. }
  set (prod1 := match alias with Some a => push_alias prod _ | None => prod end).
  assert (Hp1 : pb_ok prod1).
  { subst prod1. destruct alias as [a|]; [|exact Hp]. inversion Hal; subst. unfold push_alias. apply with_ok; auto. apply Forall_app. split; [now destruct Hp as (_ & _ & _ & ?)|]. constructor; auto. }
  clearbody prod1.
  assert (Sym : same (Forall pb_ok)
     (let prod' := with_production prod1 (pb_production prod1 ++ [definition text defs (g_span item)]) in
      if opt then do al <- match alias with Some _ => map_last (set_optional (Some false)) (pb_aliases prod1) | None => Val (pb_aliases prod1) end;
        match rest with [] => Val [prod'; with_aliases prod1 al] | _ => do ll <- mapM (fun o => single text order defs n o rest) [prod'; with_aliases prod1 al]; Val (List.concat ll) end
      else single text order defs n prod' rest)
     (let prod' := with_production prod1 (pb_production prod1 ++ [definition text' defs (g_span item)]) in
      if opt then do al <- match alias with Some _ => map_last (set_optional (Some false)) (pb_aliases prod1) | None => Val (pb_aliases prod1) end;
        match rest with [] => Val [prod'; with_aliases prod1 al] | _ => do ll <- mapM (fun o => single text' order defs n o rest) [prod'; with_aliases prod1 al]; Val (List.concat ll) end
      else single text' order defs n prod' rest)).
  { destruct (definition_same (g_span item)) as [Ed Hd]; [now apply all_here in Hitem|]. rewrite <- Ed. cbv zeta.
    assert (Hp2 : pb_ok (with_production prod1 (pb_production prod1 ++ [definition text defs (g_span item)]))).
    { destruct Hp1 as (H1 & H2). split; [simpl; apply Forall_app; auto|exact H2]. }
    destruct opt; [|apply IH; auto].
    apply (same_bind (Forall (fun a => P (a_alias a)))).
    - destruct Hp1 as (_ & _ & _ & H4). destruct alias; [apply same_last; auto|now apply same_val].
    - intros l Hl. apply (Many [_; _]); auto. constructor; [auto|]. constructor; [now apply with_ok|constructor]. }
  destruct (tk_ty item); try apply same_panic; try exact Sym.
  destruct (g_ast item) as [s|x|l|i t r|variants|l|? ? ? ?|s|tk al|s] eqn:Ei; try apply same_panic. clear Sym.
  apply (same_bind (fun x => pb_ok (fst x) /\ Forall pb_ok (snd x))).
  - apply same_foldM; [|split; [auto|constructor]]. intros [variant a] [pr prs] Hv [Hpr Hprs]. destruct (span_eqb a (0, 0)); [|apply same_panic].
    apply (same_bind (Forall (fun a => P (a_alias a)))).
    + destruct Hpr as (_ & _ & _ & H4). destruct alias; [apply same_last; auto|now apply same_val].
    + intros l Hl. assert (Hw : pb_ok (with_aliases pr l)) by now apply with_ok.
      eapply same_bind; [apply IH; [exact Hw|]|].
      * apply Forall_forall. intros h Hh. apply (all_children item); auto. unfold children. rewrite Ei. apply in_flat_map. exists (variant, a). auto.
      * intros news Hn. apply same_val. split; [exact Hw|]. simpl. apply Forall_app. auto.
  - intros [pr prs] [Hpr Hprs]. cbn [fst snd] in Hpr, Hprs. destruct (set_sub_same pr prs Hprs) as [Es Hs]. cbv zeta. rewrite <- Es.
    apply (same_bind (Forall pb_ok)); [|intros l Hl; now apply Many]. destruct opt; [|now apply same_val].
    apply (same_bind (Forall (fun a => P (a_alias a)))).
    + destruct Hpr as (_ & _ & _ & H4). destruct alias; [apply same_last; auto|now apply same_val].
    + intros l Hl. apply (same_bind pb_ok).
      * apply same_expect. intros p0 E0. apply nth_error_In in E0. rewrite Forall_forall in Hs. auto.
      * intros p0 Hp0. apply same_val. apply Forall_app. split; [exact Hs|]. constructor; [|constructor]. apply add_missing_ok; [now apply with_ok|]. now destruct Hp0 as (_ & _ & _ & H4).
Qed.
Lemma many_same fuel l pipe : Forall pb_ok l -> Forall all_in pipe -> same (Forall pb_ok) (many text order defs fuel l pipe) (many text' order defs fuel l pipe).
Proof.
  intros Hl Hr. unfold many. assert (same (Forall pb_ok) (do ll <- mapM (fun o => single text order defs fuel o pipe) l; Val (List.concat ll)) (do ll <- mapM (fun o => single text' order defs fuel o pipe) l; Val (List.concat ll))) as Hs.
  { eapply same_bind; [apply (same_mapM (Forall pb_ok)); intros o Hi; apply single_same; auto; rewrite Forall_forall in Hl; auto|]. intros ll Hll. apply same_val. now apply concat_ok. }
  destruct pipe; [now apply same_val|exact Hs].
Qed.
End Ext.

Section Process.
Variable P : span -> Prop.
Variables text text' : span -> string.
Hypothesis Et : forall s, P s -> text s = text' s.
Variable order : prod_build -> list prod_build -> list span -> list span.
Hypothesis Ho : iterates order.
Notation same := (@same _).

Lemma insert_all {A} (Q : A -> Prop) k (v : A) (m : bmap string A) : Q v -> Forall (fun e => Q (snd e)) m -> Forall (fun e => Q (snd e)) (bm_insert k v m).
Proof.
  intros Hv. induction m as [|[k' v'] m IH]; intros H; [simpl; constructor; auto|]. inversion H as [|? ? H1 H2]; subst. change (Forall (fun e => Q (snd e)) (match cmp k k' with Lt => (k, v) :: (k', v') :: m | Eq => (k, v) :: m | Gt => (k', v') :: bm_insert k v m end)). destruct (cmp k k'); constructor; auto.
Qed.
Lemma rule_same fuel b i t r g : b_ok P b -> all_in P g -> g_ast g = ARuleDecl i t r -> same (b_ok P) (rule_decl text order fuel b i t r) (rule_decl text' order fuel b i t r).
Proof.
  intros (B1 & B2 & B3) Hg Eg. pose proof (all_here P g Hg) as [_ Hr]. unfold references in Hr. rewrite Eg in Hr. inversion Hr as [|? ? Hi Hr']; subst. inversion Hr' as [|? ? Hty Hcb]; subst.
  unfold rule_decl. apply (same_bind (Forall (Forall (pb_ok P)))).
  - apply same_mapM. intros [pipe cb] Hin. assert (Hc : P cb). { rewrite Forall_forall in Hcb. apply Hcb. apply in_map_iff. now exists (pipe, cb). } rewrite <- (Et cb Hc).
    destruct (String.eqb (text cb) ""); [apply same_panic|]. apply many_same; auto.
    + constructor; [|constructor]. split; [constructor|]. split; [exact Hc|]. split; [exact Hty|constructor].
    + apply Forall_forall. intros h Hh. apply (all_children P g); auto. unfold children. rewrite Eg. apply in_flat_map. now exists (pipe, cb).
  - intros l Hl. rewrite <- (Et i Hi). destruct (bm_get (text i) (b_rules b)); [apply same_panic|]. apply same_val. split; [exact B1|]. split; [|exact B3]. simpl.
    apply (insert_all (Forall (pb_ok P))); auto. now apply concat_ok.
Qed.
Lemma process_same fuel b g : b_ok P b -> all_in P g -> same (b_ok P) (process text order fuel b g) (process text' order fuel b g).
Proof.
  intros Hb Hg. unfold process. destruct (g_ast g) as [s|x|l|i t r|l|l|? ? ? ?|s|tk al|s] eqn:Eg; try apply same_panic.
  apply same_foldM; auto. intros d b' Hd Hb'. assert (Hda : all_in P d). { apply (all_children P g); auto. unfold children. now rewrite Eg. }
  pose proof (all_here P d Hda) as [_ Hr]. unfold references in Hr.
  destruct (g_ast d) as [s|x|l'|i t r|l'|l'|? ? ? ?|s|tk al|s] eqn:Ed; try apply same_panic.
  - eapply rule_same; eauto.
  - apply same_val. destruct Hb' as (B1 & B2 & B3). inversion Hr; subst. split; [exact B1|]. split; [exact B2|]. simpl. apply Forall_app. auto.
  - unfold token_decl. inversion Hr as [|? ? Htk Hr']; subst. inversion Hr'; subst. rewrite <- (Et tk Htk). destruct (bm_get (text tk) (b_aliases b')); [apply same_panic|].
    apply same_val. destruct Hb' as (B1 & B2 & B3). split; [|split; auto]. intros k v. cbn [b_aliases]. rewrite bm_get_insert. destruct (eqb _ _); [intros [= <-]; auto|apply B1].
Qed.

Lemma concat_ext {A} (f f' : A -> string) l : (forall a, In a l -> f a = f' a) -> String.concat "" (map f l) = String.concat "" (map f' l).
Proof. intros H. f_equal. now apply map_ext_in. Qed.
Lemma enum_in {A} (l : list A) : forall i x, In x (enum i l) -> In (snd x) l.
Proof. induction l as [|a l IH]; intros i x Hx; simpl in *; [easy|]. destruct Hx as [<-|Hx]; [now left|right; eauto]. Qed.
Lemma mapM_ext {A B} (f f' : A -> res B) l : (forall a, In a l -> f a = f' a) -> mapM f l = mapM f' l.
Proof. induction l as [|a l IH]; intros H; [reflexivity|]. cbn [mapM]. rewrite (H a) by now left. now rewrite IH by (intros x Hx; apply H; now right). Qed.
Lemma use_same b : b_ok P b -> use_lines text b = use_lines text' b.
Proof. intros (_ & _ & B3). apply concat_ext. intros s Hs. rewrite Forall_forall in B3. now rewrite Et by auto. Qed.
Lemma write_same b rules : b_ok P b -> Forall (fun e => Forall (pb_ok P) (snd e)) rules -> write_out text b rules = write_out text' b rules.
Proof.
  intros Hb Hr. unfold write_out. assert (E1 : dump_grammar_text text b rules = dump_grammar_text text' b rules).
  { unfold dump_grammar_text. rewrite (use_same b Hb). rewrite (concat_ext (fun e => write_rule text (fst e) (snd e)) (fun e => write_rule text' (fst e) (snd e))); [reflexivity|].
    intros [nm ps] He. rewrite Forall_forall in Hr. apply Hr in He. cbn [fst snd] in *. unfold write_rule. rewrite (concat_ext (write_prod text) (write_prod text')); [reflexivity|].
    intros p Hp. rewrite Forall_forall in He. destruct (He p Hp) as (H1 & _). unfold write_prod. rewrite (concat_ext (fun g => text g ++ ", ")%string (fun g => text' g ++ ", ")%string); [reflexivity|].
    intros s Hs. rewrite Forall_forall in H1. now rewrite Et by auto. }
  assert (E2 : dump_reductor_text text "Gramem" b rules = dump_reductor_text text' "Gramem" b rules).
  { unfold dump_reductor_text. rewrite (use_same b Hb). cbn [String.eqb]. rewrite (mapM_ext (fun e => write_rule_reduction text "Gramem" (fst e) (snd e)) (fun e => write_rule_reduction text' "Gramem" (fst e) (snd e))); [reflexivity|].
    intros [nm ps] He. rewrite Forall_forall in Hr. apply Hr in He. cbn [fst snd] in *. unfold write_rule_reduction. destruct (nth_error ps 0) as [p0|] eqn:E0; [|reflexivity]. cbn [expect bind].
    rewrite Forall_forall in He. assert (Hty : text (pb_ty p0) = text' (pb_ty p0)). { apply nth_error_In in E0. destruct (He _ E0) as (_ & _ & H3 & _). auto. } rewrite Hty.
    rewrite (mapM_ext (fun x => write_reductor text "Gramem" nm (text' (pb_ty p0)) (fst x) (snd x)) (fun x => write_reductor text' "Gramem" nm (text' (pb_ty p0)) (fst x) (snd x))); [reflexivity|].
    intros x Hx. apply enum_in in Hx. destruct (He _ Hx) as (_ & H2 & _ & H4). unfold write_reductor. rewrite (Et _ H2).
    rewrite (concat_ext (fun a => binding_text (write_alias text a)) (fun a => binding_text (write_alias text' a))); [reflexivity|].
    intros a Ha. rewrite Forall_forall in H4. unfold write_alias. now rewrite Et by auto. }
  now rewrite E1, E2.
Qed.
End Process.
