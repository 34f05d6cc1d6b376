(** The statements of the emitted reductors are well typed when no optional group has an alias. *)
From Coq Require Import List Bool Arith Lia String Permutation.
From Verif Require Import BTree Model Strings Wop WopSpec WopP Base.
Import ListNotations.
Local Open Scope list_scope.

Section T.
Variable text : span -> string.
Variable order : prod_build -> list prod_build -> list span -> list span.
Hypothesis Ho : iterates order.
Variable defs : bmap string span.
Notation single := (single text order defs).

Definition sty (a : item_alias) : option rust := stmt_type (write_alias text a).
Definition ok (p : prod_build) : Prop := forall a, In a (pb_aliases p) -> sty a <> None.

Lemma many_in n origin gs out :
  match gs with [] => Val origin | _ => do l <- mapM (fun o => single n o gs) origin; Val (List.concat l) end = Val out ->
  forall p, In p out -> (gs = [] /\ In p origin) \/ exists o l, In o origin /\ single n o gs = Val l /\ In p l.
Proof.
  destruct gs as [|g gs]; [intros [= <-]; auto|]. intros H p Hp. right. apply bind_val in H as (l & E & H). injection H as <-.
  apply in_concat in Hp as (x & Hx & Hp). assert (F : Forall2 (fun o x => single n o (g :: gs) = Val x) origin l).
  { clear - E. revert l E. induction origin as [|o os IH]; intros l E; [injection E as <-; constructor|]. cbn [mapM] in E.
    apply bind_val in E as (y & E1 & E). apply bind_val in E as (ys & E2 & E). injection E as <-. constructor; auto. }
  destruct (Forall2_in_r_ex _ _ _ _ F Hx) as (o & Hoi & Eo). eauto.
Qed.

Lemma sty_none s c : sty (mkAlias s (Some false) 0 None c) <> None.
Proof. discriminate. Qed.
Lemma sty_true a : sty (set_optional (Some true) a) <> None.
Proof. unfold sty, stmt_type. simpl. destruct (a_final a); discriminate. Qed.
Lemma ok_sub names p : ok p -> ok (fold_left (sub_alias text) names p).
Proof.
  revert p. induction names as [|s names IH]; intros p H; [exact H|]. simpl. apply IH. unfold sub_alias.
  destruct (map_first _ _ _) as [l|] eqn:E.
  - intros a Ha. simpl in Ha. assert (F : forall l m, map_first (fun a => String.eqb (text (a_alias a)) (text s)) (set_optional (Some true)) l = Some m -> In a m -> In a l \/ exists b, a = set_optional (Some true) b).
    { clear. induction l as [|b l IH]; intros m E Hi; simpl in E; [discriminate|]. destruct (String.eqb _ _).
      - injection E as <-. destruct Hi as [<-|Hi]; [right; eauto|left; now right].
      - destruct (map_first _ _ l) as [m'|] eqn:Em; [|discriminate]. injection E as <-. destruct Hi as [<-|Hi]; [left; now left|].
        destruct (IH _ eq_refl Hi) as [H|H]; [left; now right|now right]. }
    destruct (F _ _ E Ha) as [Hi|(b & ->)]; [now apply H|apply sty_true].
  - intros a Ha. simpl in Ha. apply in_app_or in Ha as [Ha|[<-|[]]]; [now apply H|apply sty_none].
Qed.
Lemma ok_miss c X p : ok p -> ok (fold_left (add_missing c) X p).
Proof.
  revert p. induction X as [|a X IH]; intros p H; [exact H|]. simpl. apply IH. unfold add_missing. destruct (existsb _ _); [exact H|].
  intros b Hb. simpl in Hb. apply in_app_or in Hb as [Hb|[<-|[]]]; [now apply H|apply sty_none].
Qed.
Lemma ok_tail p al ob f c i : (ob = Some false -> f = None \/ al = None) -> ok p -> ok (with_aliases p (pb_aliases p ++ tail al ob i f c)).
Proof.
  intros Hf H a Ha. simpl in Ha. apply in_app_or in Ha as [Ha|Ha]; [now apply H|]. destruct al as [s|]; [|easy]. destruct Ha as [<-|[]].
  unfold sty, stmt_type. simpl. destruct ob as [[]|], f; try discriminate. now destruct (Hf eq_refl).
Qed.

Theorem single_solid n : forall gs ps prod out, rep_pipe gs ps -> forallb solid ps = true -> ok prod -> single n prod gs = Val out -> forall p, In p out -> ok p.
Proof.
  induction n as [|n IH]; [discriminate|]. intros gs ps prod out Hr Hs Hk E p Hp.
  destruct Hr as [|g q gs ps Hg Hr]; [injection E as <-; destruct Hp as [<-|[]]; exact Hk|].
  simpl in Hs. apply andb_prop in Hs as [Hq Hs].
  assert (Hmany : forall origin, (forall o, In o origin -> ok o) ->
    match gs with [] => Val origin | _ => do l <- mapM (fun o => single n o gs) origin; Val (List.concat l) end = Val out -> ok p).
  { intros origin Hor Em. destruct (many_in _ _ _ _ Em p Hp) as [[_ Hi]|(o & l & Hi & Es & Hl)]; [auto|]. eapply IH; [exact Hr|exact Hs|exact (Hor _ Hi)|exact Es|exact Hl]. }
  destruct Hg as [g item opt al cl' Ea Ht|g item opt al cl' variants vs Ea Ht Ei Hne Fv]; set (cl := is_some al) in Ea; clearbody cl; cbn [Wop.single] in E; rewrite Ea in E; rewrite push_own in E.
  - set (prod1 := with_aliases prod _) in E.
    assert (H1 : ok prod1) by (apply ok_tail; [now left|exact Hk]).
    assert (E' : (if opt then
        do al0 <- match al with Some _ => map_last (set_optional (Some false)) (pb_aliases prod1) | None => Val (pb_aliases prod1) end;
        match gs with [] => Val [with_production prod1 (pb_production prod1 ++ [definition text defs (g_span item)]); with_aliases prod1 al0]
        | _ => do l <- mapM (fun o => single n o gs) [with_production prod1 (pb_production prod1 ++ [definition text defs (g_span item)]); with_aliases prod1 al0]; Val (List.concat l) end
      else single n (with_production prod1 (pb_production prod1 ++ [definition text defs (g_span item)])) gs) = Val out) by (destruct Ht as [Ht|Ht]; rewrite Ht in E; exact E).
    clear E. destruct opt.
    + unfold prod1 in E' at 1 2. change (pb_aliases (with_aliases prod ?x)) with x in E'. rewrite last_own, set_optional_tail in E'. cbn [bind] in E'.
      eapply Hmany; [|exact E']. intros o [<-|[<-|[]]]; [exact H1|]. change (with_aliases prod1 ?x) with (with_aliases prod x). apply ok_tail; [now left|exact Hk].
    + eapply IH; [exact Hr|exact Hs| |exact E'|exact Hp]. exact H1.
  - rewrite Ht, Ei in E. simpl in Hq. apply andb_prop in Hq as [Hq Hv]. rewrite forallb_forall in Hv.
    apply bind_val in E as ([prod2 prods] & Ef & E).
    assert (G : exists f, prod2 = with_aliases prod (pb_aliases prod ++ tail al (if opt then Some true else None) (List.length (pb_production prod)) f cl) /\ forall p, In p prods -> ok p).
    { assert (F : forall f acc, (forall p, In p acc -> ok p) -> foldM (fun '(prod, prods) '(variant, a) =>
          if span_eqb a (0, 0) then
            do al0 <- match al with Some _ => map_last (set_final (Some (List.length (pb_production prod) + List.length variant))) (pb_aliases prod) | None => Val (pb_aliases prod) end;
            let prod := with_aliases prod al0 in do news <- single n prod variant; Val (prod, prods ++ news)
          else Panic P_assert) variants (with_aliases prod (pb_aliases prod ++ tail al (if opt then Some true else None) (List.length (pb_production prod)) f cl), acc) = Val (prod2, prods) ->
        exists f, prod2 = with_aliases prod (pb_aliases prod ++ tail al (if opt then Some true else None) (List.length (pb_production prod)) f cl) /\ forall p, In p prods -> ok p).
      { clear Ef Hne Ei E. induction Fv as [|[gs' a] v variants vs [Esn Fr] Fv IHv]; intros f acc Hacc Ef.
        - injection Ef as <- <-. eauto.
        - cbn [foldM] in Ef. apply bind_val in Ef as ([q1 q2] & E1 & E2). destruct (span_eqb a (0, 0)); [|discriminate].
          change (pb_aliases (with_aliases prod ?x)) with x in E1. rewrite last_own in E1. cbn [bind] in E1. apply bind_val in E1 as (news & En & E1). injection E1 as <- <-.
          change (pb_production (with_aliases prod ?x)) with (pb_production prod) in En, E2.
          change (with_aliases (with_aliases prod ?x) ?y) with (with_aliases prod y) in En, E2.
          assert (Et : exists f2, map (set_final (Some (List.length (pb_production prod) + List.length gs'))) (tail al (if opt then Some true else None) (List.length (pb_production prod)) f cl)
            = tail al (if opt then Some true else None) (List.length (pb_production prod)) f2 cl) by (destruct al; [eexists; reflexivity|exists None; reflexivity]).
          destruct Et as (f2 & Et). rewrite Et in En, E2. eapply (IHv (fun x Hx => Hv x (or_intror Hx))); [|exact E2].
          intros p' Hp'. apply in_app_or in Hp' as [Hp'|Hp']; [auto|]. eapply IH; [exact Fr|exact (Hv v (or_introl eq_refl))| |exact En|exact Hp'].
          apply ok_tail; [destruct opt; discriminate|exact Hk]. }
      eapply F; [|exact Ef]. easy. }
    destruct G as (f & -> & Hok). set (prods' := set_sub_aliases _ _ _ _) in E.
    assert (Hok' : forall p, In p prods' -> ok p).
    { intros p' Hp'. unfold prods', set_sub_aliases in Hp'. apply in_map_iff in Hp' as (p0 & <- & Hp0). apply ok_sub. auto. }
    apply bind_val in E as (prods2 & E2 & E). eapply Hmany; [|exact E]. destruct opt.
    + apply bind_val in E2 as (al0 & E3 & E2). apply bind_val in E2 as (p0 & _ & E2). injection E2 as <-. destruct al as [s|]; [discriminate|]. injection E3 as <-.
      intros o Hi. apply in_app_or in Hi as [Hi|[<-|[]]]; [auto|]. apply ok_miss. change (with_aliases (with_aliases prod ?x) ?y) with (with_aliases prod y). apply (ok_tail prod None None None false 0); auto.
    + injection E2 as <-. exact Hok'.
Qed.

Definition sig (a : item_alias) : span * option rust := (a_alias a, sty a).
Definition sigs (p : prod_build) : list (span * option rust) := map sig (pb_aliases p).
Definition own_sig (p : pat) : list (span * option rust) :=
  match p with
  | PSym _ o (Some a) _ => [(a, Some (if o then TOption TItem else TItem))]
  | PGroup _ o (Some a) _ => [(a, Some (if o then TOption TVec else TVec))]
  | _ => []
  end.

Lemma sigs_tail p l : sigs (with_aliases p l) = map sig l.
Proof. reflexivity. Qed.
Lemma sigs_alias p q l : sigs p = sigs q ++ l -> map a_alias (pb_aliases p) = map a_alias (pb_aliases q) ++ map fst l.
Proof. unfold sigs. intros E. apply (f_equal (map fst)) in E. rewrite map_app, !map_map in E. exact E. Qed.
Lemma no_spans ps : pipe_spans ps = [] -> forallb flat ps = true /\ flat_map own_sig ps = [].
Proof.
  induction ps as [|p ps IH]; [auto|]. unfold pipe_spans. simpl. intros E. apply app_eq_nil in E as [E1 E2]. destruct (IH E2) as [-> ->]. rewrite andb_true_r, app_nil_r.
  destruct p as [s o [a|] c|vs o [a|] c]; simpl in E1; try discriminate; auto. simpl. rewrite andb_false_r. split; [simpl|reflexivity]. apply forallb_forall. intros v Hv.
  destruct (pipe_spans (fst v)) as [|x l] eqn:E; [reflexivity|]. exfalso. assert (In x (flat_map (fun v => flat_map alias_spans (fst v)) vs)) as Hx.
  { apply in_flat_map. exists v. split; auto. unfold pipe_spans in E. rewrite E. now left. }
  rewrite E1 in Hx. easy.
Qed.
Lemma sigs_own prod al (opt : bool) i f s cl' : sigs (with_aliases prod (pb_aliases prod ++ tail al (if opt then Some true else None) i None (is_some al))) = sigs prod ++ own_sig (PSym s opt al cl') /\
  sigs (with_aliases prod (pb_aliases prod ++ tail al (if opt then Some true else None) i (Some f) (is_some al))) = sigs prod ++ own_sig (PGroup [] opt al cl').
Proof. unfold sigs. simpl. rewrite !map_app. split; f_equal; destruct al; [|reflexivity| |reflexivity]; unfold sig, sty, stmt_type; simpl; destruct opt; reflexivity. Qed.

Lemma filter_none {A} (P : A -> bool) l : (forall x, In x l -> P x = false) -> filter P l = [].
Proof. induction l as [|x l IH]; intros Z; [reflexivity|]. simpl. rewrite (Z x (or_introl eq_refl)). apply IH. intros y Hy. apply Z. now right. Qed.

Theorem single_flat n : forall gs ps prod out, rep_pipe gs ps -> forallb flat ps = true -> single n prod gs = Val out -> forall p, In p out -> sigs p = sigs prod ++ flat_map own_sig ps.
Proof.
  induction n as [|n IH]; [discriminate|]. intros gs ps prod out Hr Hs E p Hp.
  destruct Hr as [|g q gs ps Hg Hr]; [injection E as <-; destruct Hp as [<-|[]]; simpl; now rewrite app_nil_r|].
  simpl in Hs. apply andb_prop in Hs as [Hq Hs].
  assert (Hmany : forall origin, (forall o, In o origin -> sigs o = sigs prod ++ own_sig q) ->
    match gs with [] => Val origin | _ => do l <- mapM (fun o => single n o gs) origin; Val (List.concat l) end = Val out -> sigs p = sigs prod ++ flat_map own_sig (q :: ps)).
  { intros origin Hor Em. simpl. rewrite app_assoc. destruct (many_in _ _ _ _ Em p Hp) as [[-> Hi]|(o & l & Hi & Es & Hl)].
    - inversion Hr; subst. rewrite app_nil_r. auto.
    - rewrite <- (Hor _ Hi). eapply IH; [exact Hr|exact Hs|exact Es|exact Hl]. }
  destruct Hg as [g item opt al cl' Ea Ht|g item opt al cl' variants vs Ea Ht Ei Hne Fv]; cbn [Wop.single] in E; rewrite Ea in E; rewrite push_own in E.
  - set (prod1 := with_aliases prod _) in E.
    assert (H1 : sigs prod1 = sigs prod ++ own_sig (PSym (g_span item) opt al cl')) by apply (sigs_own prod al opt _ 0).
    assert (E' : (if opt then
        do al0 <- match al with Some _ => map_last (set_optional (Some false)) (pb_aliases prod1) | None => Val (pb_aliases prod1) end;
        match gs with [] => Val [with_production prod1 (pb_production prod1 ++ [definition text defs (g_span item)]); with_aliases prod1 al0]
        | _ => do l <- mapM (fun o => single n o gs) [with_production prod1 (pb_production prod1 ++ [definition text defs (g_span item)]); with_aliases prod1 al0]; Val (List.concat l) end
      else single n (with_production prod1 (pb_production prod1 ++ [definition text defs (g_span item)])) gs) = Val out) by (destruct Ht as [Ht|Ht]; rewrite Ht in E; exact E).
    clear E. destruct opt.
    + unfold prod1 in E' at 1 2. change (pb_aliases (with_aliases prod ?x)) with x in E'. rewrite last_own, set_optional_tail in E'. cbn [bind] in E'.
      eapply Hmany; [|exact E']. intros o [<-|[<-|[]]]; [exact H1|]. change (with_aliases prod1 ?x) with (with_aliases prod x).
      unfold sigs. simpl. rewrite map_app. f_equal. now destruct al.
    + cbn [flat_map]. rewrite app_assoc, <- H1. change (sigs prod1) with (sigs (with_production prod1 (pb_production prod1 ++ [definition text defs (g_span item)]))). eapply IH; [exact Hr|exact Hs|exact E'|exact Hp].
  - rewrite Ht, Ei in E. simpl in Hq. apply andb_prop in Hq as [Hq Hv]. rewrite forallb_forall in Hv.
    apply bind_val in E as ([prod2 prods] & Ef & E).
    assert (G : exists f, prod2 = with_aliases prod (pb_aliases prod ++ tail al (if opt then Some true else None) (List.length (pb_production prod)) f (is_some al)) /\
      forall p, In p prods -> sigs p = sigs prod ++ own_sig (PGroup vs opt al cl')).
    { assert (F : forall f acc, (forall p, In p acc -> sigs p = sigs prod ++ own_sig (PGroup vs opt al cl')) -> foldM (fun '(prod, prods) '(variant, a) =>
          if span_eqb a (0, 0) then
            do al0 <- match al with Some _ => map_last (set_final (Some (List.length (pb_production prod) + List.length variant))) (pb_aliases prod) | None => Val (pb_aliases prod) end;
            let prod := with_aliases prod al0 in do news <- single n prod variant; Val (prod, prods ++ news)
          else Panic P_assert) variants (with_aliases prod (pb_aliases prod ++ tail al (if opt then Some true else None) (List.length (pb_production prod)) f (is_some al)), acc) = Val (prod2, prods) ->
        exists f, prod2 = with_aliases prod (pb_aliases prod ++ tail al (if opt then Some true else None) (List.length (pb_production prod)) f (is_some al)) /\
          forall p, In p prods -> sigs p = sigs prod ++ own_sig (PGroup vs opt al cl')).
      { change (own_sig (PGroup vs opt al cl')) with (own_sig (PGroup [] opt al cl')). clear Ef Hne Ei E Hmany. induction Fv as [|[gs' a] v variants vs [Esn Fr] Fv IHv]; intros f acc Hacc Ef.
        - injection Ef as <- <-. eauto.
        - cbn [foldM] in Ef. apply bind_val in Ef as ([q1 q2] & E1 & E2). destruct (span_eqb a (0, 0)); [|discriminate].
          change (pb_aliases (with_aliases prod ?x)) with x in E1. rewrite last_own in E1. cbn [bind] in E1. apply bind_val in E1 as (news & En & E1). injection E1 as <- <-.
          change (pb_production (with_aliases prod ?x)) with (pb_production prod) in En, E2.
          change (with_aliases (with_aliases prod ?x) ?y) with (with_aliases prod y) in En, E2.
          assert (Et : map (set_final (Some (List.length (pb_production prod) + List.length gs'))) (tail al (if opt then Some true else None) (List.length (pb_production prod)) f (is_some al))
            = tail al (if opt then Some true else None) (List.length (pb_production prod)) (Some (List.length (pb_production prod) + List.length gs')) (is_some al)) by (destruct al; reflexivity).
          rewrite Et in En, E2. eapply (IHv (fun x Hx => Hv x (or_intror Hx))); [|exact E2].
          intros p' Hp'. apply in_app_or in Hp' as [Hp'|Hp']; [auto|].
          rewrite <- (proj2 (sigs_own prod al opt (List.length (pb_production prod)) (List.length (pb_production prod) + List.length gs') (0, 0) cl')).
          specialize (Hv v (or_introl eq_refl)). destruct (pipe_spans (fst v)) eqn:Ev; [|discriminate]. apply no_spans in Ev as [Ev1 Ev2].
          rewrite (IH _ _ _ _ Fr Ev1 En p' Hp'), Ev2. apply app_nil_r. }
      eapply F; [|exact Ef]. easy. }
    destruct G as (f & -> & Hok). set (prods' := set_sub_aliases _ _ _ _) in E.
    assert (Ep : prods' = prods).
    { unfold prods', set_sub_aliases. match goal with |- map (fun p => fold_left _ (order ?b ?ps ?l) p) prods = _ => assert (El : l = []) end.
      - match goal with |- filter ?P ?L = [] => assert (Z : forall x, In x L -> P x = false) end.
        { intros x Hx. apply -> dedup_in in Hx. apply in_map_iff in Hx as (a & <- & Ha). apply in_flat_map in Ha as (p0 & Hp0 & Ha). apply negb_false_iff, existsb_span.
          apply Hok, sigs_alias in Hp0. apply (in_map a_alias) in Ha. rewrite Hp0 in Ha. simpl. rewrite map_app, in_app_iff in *. destruct Ha as [Ha|Ha]; [now left|right]. destruct al as [s|]; [exact Ha|easy]. }
        exact (filter_none _ _ Z).
      - rewrite El. match goal with |- map (fun p => fold_left _ (order ?b ?ps []) p) prods = _ => assert (En : order b ps [] = []) by (apply Permutation_nil, Permutation_sym, Ho) end.
        rewrite En. simpl. apply map_id. }
    rewrite Ep in E. apply bind_val in E as (prods2 & E2 & E). eapply Hmany; [|exact E]. destruct opt.
    + apply bind_val in E2 as (al0 & E3 & E2). apply bind_val in E2 as (p0 & Hp0 & E2). injection E2 as <-. destruct al as [s|]; [discriminate|]. injection E3 as <-.
      intros o Hi. apply in_app_or in Hi as [Hi|[<-|[]]]; [auto|]. rewrite add_missing_fold, miss_skip.
      * rewrite sigs_tail. simpl. now rewrite !app_nil_r.
      * intros a Ha. simpl. rewrite app_nil_r. destruct (nth_error prods 0) as [p1|] eqn:En; [|discriminate]. injection Hp0 as <-. apply nth_error_In in En. apply Hok, sigs_alias in En. simpl in En. rewrite app_nil_r in En. rewrite <- En. now apply in_map.
    + injection E2 as <-. exact Hok.
Qed.

Lemma signature_sigs ps : signature text ps = map (fun x => (text (fst x), snd x)) (flat_map own_sig ps).
Proof. unfold signature. rewrite map_flat_map. apply flat_map_ext. intros [s o [a|] c|vs o [a|] c]; reflexivity. Qed.

Theorem many_typed n cb ty gs ps out : rep_pipe gs ps -> many text order defs n [mkProd [] cb ty []] gs = Val out ->
  forall p, In p out -> let bs := map (write_alias text) (pb_aliases p) in
  (forallb solid ps = true -> forall b, In b bs -> stmt_type b <> None) /\ (forallb flat ps = true -> map (fun b => (bd_name b, stmt_type b)) bs = signature text ps).
Proof.
  intros Hr E p Hp bs. unfold many in E. destruct (many_in _ _ _ _ E p Hp) as [[-> [<-|[]]]|(o & l & [<-|[]] & Es & Hl)].
  - inversion Hr; subst. split; [easy|reflexivity].
  - split.
    + intros Hs b Hb. apply in_map_iff in Hb as (a & <- & Ha). refine (single_solid n gs ps _ l Hr Hs _ Es p Hl a Ha); easy.
    + intros Hf. unfold bs. rewrite map_map, signature_sigs. pose proof (single_flat n gs ps _ l Hr Hf Es p Hl) as Ef. change (sigs p = flat_map own_sig ps) in Ef. rewrite <- Ef. unfold sigs. rewrite map_map. reflexivity.
Qed.
End T.
