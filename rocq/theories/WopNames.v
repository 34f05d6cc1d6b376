(** Every name of an alternative is bound in each of its productions, and nothing else is. *)
From Coq Require Import List Bool Arith Lia String Permutation.
From Verif Require Import BTree Model Strings Wop WopSpec WopP WopType Base.
Import ListNotations.
Local Open Scope list_scope.

Section T.
Variable text : span -> string.
Variable order : prod_build -> list prod_build -> list span -> list span.
Hypothesis Ho : iterates order.
Variable defs : bmap string span.
Notation single := (single text order defs).

Definition bound_names (p : prod_build) : list string := map (fun a => text (a_alias a)) (pb_aliases p).
(** [p] binds the names of [q] and [X] *)
Definition adds (q : prod_build) (X : list string) (p : prod_build) : Prop := forall n, In n (bound_names p) <-> In n (bound_names q) \/ In n X.

Lemma first_names nm l m : map_first (fun a => String.eqb (text (a_alias a)) (text nm)) (set_optional (Some true)) l = Some m ->
  map (fun a => text (a_alias a)) m = map (fun a => text (a_alias a)) l /\ In (text nm) (map (fun a => text (a_alias a)) l).
Proof.
  revert m. induction l as [|a l IH]; intros m E; simpl in E; [discriminate|]. destruct (String.eqb_spec (text (a_alias a)) (text nm)) as [H|H].
  - injection E as <-. split; [reflexivity|now left].
  - destruct (map_first _ _ l) as [m'|] eqn:Em; [|discriminate]. injection E as <-. destruct (IH _ eq_refl) as [E2 Hi]. cbn [map]. rewrite E2. split; [reflexivity|now right].
Qed.
Lemma sub_names names : forall p, adds p (map text names) (fold_left (sub_alias text) names p).
Proof.
  induction names as [|s names IH]; intros p n; [simpl; tauto|]. cbn [fold_left map]. rewrite (IH _ n). unfold sub_alias.
  destruct (map_first _ _ _) as [l|] eqn:E.
  - apply first_names in E as [E Hi]. unfold bound_names in *. cbn [pb_aliases with_aliases]. rewrite E. simpl. split; [tauto|]. intros [H|[<-|H]]; auto.
  - unfold bound_names. cbn [pb_aliases with_aliases]. rewrite map_app, in_app_iff. simpl. tauto.
Qed.
Lemma miss_names c X : forall p, adds p (map (fun a => text (a_alias a)) X) (fold_left (add_missing c) X p).
Proof.
  induction X as [|a X IH]; intros p n; [simpl; tauto|]. cbn [fold_left map]. rewrite (IH _ n). unfold add_missing. destruct (existsb _ _) eqn:E.
  - apply has_span in E. simpl. split; [tauto|]. intros [H|[<-|H]]; auto. left. unfold bound_names. rewrite <- (map_map a_alias text). now apply in_map.
  - unfold bound_names. cbn [pb_aliases with_aliases]. rewrite map_app, in_app_iff. simpl. tauto.
Qed.
Lemma tail_names p al ob i f c n : In n (bound_names (with_aliases p (pb_aliases p ++ tail al ob i f c))) <-> In n (bound_names p) \/ In n (map text (opt_span al)).
Proof. unfold bound_names. cbn [pb_aliases with_aliases]. rewrite map_app, in_app_iff. destruct al; simpl; tauto. Qed.

Lemma many_nonempty n origin gs out : origin <> [] -> (forall o l, In o origin -> single n o gs = Val l -> l <> []) ->
  match gs with [] => Val origin | _ => do l <- mapM (fun o => single n o gs) origin; Val (List.concat l) end = Val out -> out <> [].
Proof.
  intros Hne H E. destruct gs as [|g gs]; [now injection E as <-|]. destruct origin as [|o os]; [easy|]. cbn [mapM] in E. apply bind_val in E as (l & E1 & E). injection E as <-.
  apply bind_val in E1 as (x & Ex & E1). apply bind_val in E1 as (xs & _ & E1). injection E1 as <-. specialize (H o x (or_introl eq_refl) Ex). destruct x; [easy|discriminate].
Qed.

Theorem single_names n : forall gs ps prod out, rep_pipe gs ps -> single n prod gs = Val out -> out <> [] /\ forall p, In p out -> adds prod (pipe_names text ps) p.
Proof.
  induction n as [|n IH]; [discriminate|]. intros gs ps prod out Hr E.
  destruct Hr as [|g q gs ps Hg Hr]; [injection E as <-; split; [discriminate|]; intros p [<-|[]] x; simpl; tauto|].
  assert (Hmany : forall origin, origin <> [] -> (forall o, In o origin -> adds prod (item_names text q) o) ->
    match gs with [] => Val origin | _ => do l <- mapM (fun o => single n o gs) origin; Val (List.concat l) end = Val out -> out <> [] /\ forall p, In p out -> adds prod (pipe_names text (q :: ps)) p).
  { intros origin Hne Hor Em. split.
    - eapply many_nonempty; [exact Hne| |exact Em]. intros o l _ Eo. eapply IH; [exact Hr|exact Eo].
    - intros p Hp x. rewrite pipe_names_cons, in_app_iff. destruct (many_in _ _ _ _ _ _ _ Em p Hp) as [[-> Hi]|(o & l & Hi & Es & Hl)].
      + inversion Hr; subst. rewrite (Hor _ Hi x). simpl. tauto.
      + destruct (IH _ _ _ _ Hr Es) as [_ H]. rewrite (H _ Hl x), (Hor _ Hi x). tauto. }
  destruct Hg as [g item opt al cl' Ea Ht|g item opt al cl' variants vs Ea Ht Ei Hne Fv]; set (cl := is_some al) in Ea; clearbody cl; cbn [Wop.single] in E; rewrite Ea in E; rewrite push_own in E.
  - set (prod1 := with_aliases prod _) in E.
    assert (H1 : adds prod (item_names text (PSym (g_span item) opt al cl')) prod1) by (intros x; unfold prod1; rewrite tail_names; destruct al; simpl; tauto).
    assert (E' : (if opt then
        do al0 <- match al with Some _ => map_last (set_optional (Some false)) (pb_aliases prod1) | None => Val (pb_aliases prod1) end;
        match gs with [] => Val [with_production prod1 (pb_production prod1 ++ [definition text defs (g_span item)]); with_aliases prod1 al0]
        | _ => do l <- mapM (fun o => single n o gs) [with_production prod1 (pb_production prod1 ++ [definition text defs (g_span item)]); with_aliases prod1 al0]; Val (List.concat l) end
      else single n (with_production prod1 (pb_production prod1 ++ [definition text defs (g_span item)])) gs) = Val out) by (destruct Ht as [Ht|Ht]; rewrite Ht in E; exact E).
    clear E. destruct opt.
    + unfold prod1 in E' at 1 2. change (pb_aliases (with_aliases prod ?x)) with x in E'. rewrite last_own, set_optional_tail in E'. cbn [bind] in E'.
      eapply Hmany; [| |exact E']; [discriminate|]. intros o [<-|[<-|[]]]; [exact H1|]. change (with_aliases prod1 ?x) with (with_aliases prod x). intros x. rewrite tail_names. destruct al; simpl; tauto.
    + destruct (IH _ _ _ _ Hr E') as [H2 H3]. split; [exact H2|]. intros p Hp x. rewrite (H3 p Hp x), pipe_names_cons, in_app_iff. rewrite <- or_assoc. apply or_iff_compat_r. apply (H1 x).
  - rewrite Ht, Ei in E.
    apply bind_val in E as ([prod2 prods] & Ef & E).
    set (base f := with_aliases prod (pb_aliases prod ++ tail al (if opt then Some true else None) (List.length (pb_production prod)) f cl)) in *.
    assert (G : exists f, prod2 = base f /\ (forall p, In p prods -> exists v, In v vs /\ adds (base f) (pipe_names text (fst v)) p) /\
      (forall v, In v vs -> exists p, In p prods /\ adds (base f) (pipe_names text (fst v)) p)).
    { assert (B : forall f f' x, In x (bound_names (base f)) <-> In x (bound_names (base f'))) by (intros; unfold base; rewrite !tail_names; tauto).
      assert (F : forall f acc, foldM (fun '(prod, prods) '(variant, a) =>
          if span_eqb a (0, 0) then
            do al0 <- match al with Some _ => map_last (set_final (Some (List.length (pb_production prod) + List.length variant))) (pb_aliases prod) | None => Val (pb_aliases prod) end;
            let prod := with_aliases prod al0 in do news <- single n prod variant; Val (prod, prods ++ news)
          else Panic P_assert) variants (base f, acc) = Val (prod2, prods) ->
        exists f, prod2 = base f /\ (forall p, In p prods -> In p acc \/ exists v, In v vs /\ adds (base f) (pipe_names text (fst v)) p) /\
          (forall p, In p acc -> In p prods) /\ (forall v, In v vs -> exists p, In p prods /\ adds (base f) (pipe_names text (fst v)) p)).
      { clear Ef Hne Ei E Hmany. induction Fv as [|[gs' a] v variants vs [Esn Fr] Fv IHv]; intros f acc Ef.
        - injection Ef as <- <-. exists f. repeat split; auto. easy.
        - cbn [foldM] in Ef. apply bind_val in Ef as ([q1 q2] & E1 & E2). destruct (span_eqb a (0, 0)); [|discriminate].
          unfold base in E1. change (pb_aliases (with_aliases prod ?x)) with x in E1. rewrite last_own in E1. cbn [bind] in E1. apply bind_val in E1 as (news & En & E1). injection E1 as <- <-.
          change (pb_production (with_aliases prod ?x)) with (pb_production prod) in En, E2.
          change (with_aliases (with_aliases prod ?x) ?y) with (with_aliases prod y) in En, E2.
          assert (Et : exists f2, map (set_final (Some (List.length (pb_production prod) + List.length gs'))) (tail al (if opt then Some true else None) (List.length (pb_production prod)) f cl)
            = tail al (if opt then Some true else None) (List.length (pb_production prod)) f2 cl) by (destruct al; [eexists; reflexivity|exists None; reflexivity]).
          destruct Et as (f2 & Et). rewrite Et in En, E2. fold (base f2) in En, E2. cbn [fst] in Fr. destruct (IH _ _ _ _ Fr En) as [Hn1 Hn2].
          destruct (IHv f2 (acc ++ news) E2) as (f3 & -> & H1 & H2 & H3). exists f3. split; [reflexivity|].
          assert (H4 : forall p, In p news -> adds (base f3) (pipe_names text (fst v)) p) by (intros p Hp x; rewrite (Hn2 p Hp x), (B f2 f3); tauto).
          repeat split.
          + intros p Hp. destruct (H1 p Hp) as [Hp'|(w & Hw & Ha)]; [|right; exists w; split; [now right|exact Ha]]. apply in_app_or in Hp' as [Hp'|Hp']; [auto|]. right. exists v. split; [now left|auto].
          + intros p Hp. apply H2, in_or_app. now left.
          + intros w [<-|Hw]; [|auto]. destruct news as [|p0 news]; [easy|]. exists p0. split; [apply H2, in_or_app; right; now left|apply H4; now left]. }
      destruct (F None [] Ef) as (f & H1 & H2 & _ & H3). exists f. split; [exact H1|]. split; [|exact H3]. intros p Hp. destruct (H2 p Hp) as [[]|H]. exact H. }
    destruct G as (f & -> & Hin & Hall). set (prods' := set_sub_aliases _ _ _ _) in E.
    assert (Hq : forall x, In x (item_names text (PGroup vs opt al cl')) <-> In x (map text (opt_span al)) \/ exists v, In v vs /\ In x (pipe_names text (fst v))).
    { intros x. unfold item_names, names, pipe_names, names, pipe_spans. cbn [alias_spans]. rewrite map_app, in_app_iff. apply or_iff_compat_l. rewrite in_map_iff. split.
      - intros (s & <- & Hs). apply in_flat_map in Hs as (v & Hv & Hs). exists v. split; auto. now apply in_map.
      - intros (v & Hv & Hs). apply in_map_iff in Hs as (s & <- & Hs). exists s. split; auto. apply in_flat_map. eauto. }
    assert (Hok : forall p, In p prods' -> adds prod (item_names text (PGroup vs opt al cl')) p).
    { intros p' Hp' x. unfold prods', set_sub_aliases in Hp'. apply in_map_iff in Hp' as (p0 & <- & Hp0). rewrite (sub_names _ p0 x), Hq. destruct (Hin _ Hp0) as (v & Hv & Hp). rewrite (Hp x). unfold base. rewrite tail_names.
      assert (N : In x (map text (order (base f) prods (filter (fun s => negb (existsb (span_eqb s) (map a_alias (pb_aliases (base f))))) (dedup (map a_alias (flat_map pb_aliases prods)))))) <->
        exists p a, In p prods /\ In a (pb_aliases p) /\ x = text (a_alias a) /\ ~ In (a_alias a) (map a_alias (pb_aliases (base f)))).
      { rewrite in_map_iff. split.
        - intros (s & <- & Hs). apply (Permutation_in _ (Ho _ _ _)), filter_In in Hs as [Hs Hs']. apply dedup_in, in_map_iff in Hs as (a & <- & Ha). apply in_flat_map in Ha as (p & Hp1 & Ha).
          exists p, a. repeat split; auto. intros K. apply existsb_span in K. now rewrite K in Hs'.
        - intros (p & a & Hp1 & Ha & -> & Hn). exists (a_alias a). split; [reflexivity|]. apply (Permutation_in _ (Permutation_sym (Ho _ _ _))), filter_In. split.
          + apply dedup_in, in_map, in_flat_map. eauto.
          + destruct (existsb _ _) eqn:K; [|reflexivity]. apply existsb_span in K. easy. }
      change (with_aliases prod (pb_aliases prod ++ tail al (if opt then Some true else None) (List.length (pb_production prod)) f cl)) with (base f). rewrite N. split.
      - intros [[[H|H]|H]|(p & a & Hp1 & Ha & -> & _)]; [tauto|tauto|right; right; eauto|]. destruct (Hin _ Hp1) as (w & Hw & Hp2). assert (In (text (a_alias a)) (bound_names p)) as K by (unfold bound_names; now apply (in_map (fun a => text (a_alias a)))).
        apply Hp2 in K as [K|K]; [|right; right; eauto]. unfold base in K. apply tail_names in K. tauto.
      - intros [H|[H|(w & Hw & H)]]; [tauto|tauto|]. destruct (Hall _ Hw) as (p & Hp1 & Hp2). assert (K : In x (bound_names p)) by (apply Hp2; now right).
        unfold bound_names in K. apply in_map_iff in K as (a & <- & Ha). destruct (in_dec (fun a b => Bool.reflect_dec _ _ (span_eqb_spec a b)) (a_alias a) (map a_alias (pb_aliases (base f)))) as [Hb|Hb]; [|right; eauto 7].
        left. left. apply (tail_names prod al (if opt then Some true else None) (List.length (pb_production prod)) f cl). fold (base f). unfold bound_names. rewrite <- (map_map a_alias text). now apply in_map. }
    assert (Hne' : prods' <> []).
    { unfold prods', set_sub_aliases. destruct vs as [|v vs']; [inversion Fv; subst; easy|]. destruct (Hall v (or_introl eq_refl)) as (p & Hp & _). destruct prods; [easy|discriminate]. }
    apply bind_val in E as (prods2 & E2 & E). eapply Hmany; [| |exact E]; clear E Hmany; destruct opt.
    + apply bind_val in E2 as (al0 & E3 & E2). apply bind_val in E2 as (p0 & _ & E2). injection E2 as <-. destruct prods'; [easy|discriminate].
    + now injection E2 as <-.
    + apply bind_val in E2 as (al0 & E3 & E2). apply bind_val in E2 as (p0 & E0 & E2). injection E2 as <-. unfold base in E3. change (pb_aliases (with_aliases prod ?x)) with x in E3. rewrite last_own, set_optional_tail in E3. injection E3 as <-.
      intros o Hi. apply in_app_or in Hi as [Hi|[<-|[]]]; [auto|]. intros x. rewrite (miss_names _ _ _ x). change (with_aliases (base f) ?y) with (with_aliases prod y). rewrite tail_names.
      assert (In p0 prods') as H0. { destruct prods'; [discriminate|]. cbn in E0. injection E0 as ->. now left. }
      fold (bound_names p0). rewrite (Hok _ H0 x), Hq. tauto.
    + injection E2 as <-. exact Hok.
Qed.

Theorem many_names n cb ty gs ps out : rep_pipe gs ps -> many text order defs n [mkProd [] cb ty []] gs = Val out ->
  forall p, In p out -> forall x, In x (map bd_name (map (write_alias text) (pb_aliases p))) <-> In x (pipe_names text ps).
Proof.
  intros Hr E p Hp x. rewrite map_map. unfold many in E. destruct (many_in _ _ _ _ _ _ _ E p Hp) as [[-> [<-|[]]]|(o & l & [<-|[]] & Es & Hl)].
  - inversion Hr; subst. reflexivity.
  - destruct (single_names n gs ps _ l Hr Es) as [_ H]. pose proof (H p Hl x) as K. unfold bound_names in K. simpl in K. simpl. tauto.
Qed.
End T.
