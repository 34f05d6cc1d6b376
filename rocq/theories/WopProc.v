(** Proofs about whole grammar files: [process], [dump_grammar] and [dump_reductor]. *)
From Coq Require Import List Bool Arith String Permutation Lia.
From Verif Require Import BTree Model Strings Base Spec SpecP Mono Wop WopSpec WopP WopType WopNames.
Import ListNotations.
Local Open Scope list_scope.
Local Open Scope nat_scope.

Section P.
Variable text : span -> string.
Variable order : prod_build -> list prod_build -> list span -> list span.
Hypothesis Ho : iterates order.

(** ** code blocks inside groups *)
Section Defs.
Variable defs : bmap string span.
Notation single := (single text order defs).

Lemma mapM_panic {A B} (f : A -> res B) p l : l <> [] -> (forall a, In a l -> f a = Panic p) -> mapM f l = Panic p.
Proof. destruct l as [|a l]; [easy|]. intros _ H. simpl. now rewrite (H a (or_introl eq_refl)). Qed.

Lemma single_unclean n : forall ps gs prod, psize ps < n -> rep_pipe gs ps -> clean_pipe ps = false -> single n prod gs = Panic P_assert.
Proof.
  induction n as [|n IH]; [lia|]. intros ps gs prod Hn Hr Hc.
  destruct Hr as [|g p gs ps Hg Hr]; [easy|].
  assert (Es : psize (p :: ps) = size p + psize ps) by reflexivity. pose proof (size_pos p) as Hp.
  simpl in Hc.
  assert (Hmany : clean_pipe ps = false -> forall origin, origin <> [] ->
    match gs with [] => Val origin | _ => do l <- mapM (fun o => single n o gs) origin; Val (List.concat l) end = Panic P_assert).
  { intros Hps origin Hne. destruct gs as [|g' gs']; [inversion Hr; subst; easy|].
    rewrite (mapM_panic _ P_assert); auto. intros o _. apply IH with ps; auto. lia. }
  destruct Hg as [g item opt al cl' Ea Ht|g item opt al cl' variants vs Ea Ht Ei Hne Fv]; set (cl := is_some al) in Ea; clearbody cl.
  - simpl in Hc. cbn [Wop.single]. rewrite Ea, push_own.
    set (prod1 := with_aliases prod _).
    assert (E : (if opt then
        do al0 <- match al with Some _ => map_last (set_optional (Some false)) (pb_aliases prod1) | None => Val (pb_aliases prod1) end;
        match gs with [] => Val [with_production prod1 (pb_production prod1 ++ [definition text defs (g_span item)]); with_aliases prod1 al0]
        | _ => do l <- mapM (fun o => single n o gs) [with_production prod1 (pb_production prod1 ++ [definition text defs (g_span item)]); with_aliases prod1 al0]; Val (List.concat l) end
      else single n (with_production prod1 (pb_production prod1 ++ [definition text defs (g_span item)])) gs) = Panic P_assert).
    { destruct opt.
      - unfold prod1 at 1 2. change (pb_aliases (with_aliases prod ?x)) with x. rewrite last_own. cbn [bind]. now apply Hmany.
      - apply IH with ps; auto. lia. }
    destruct Ht as [Ht|Ht]; rewrite Ht; exact E.
  - cbn [Wop.single]. rewrite Ea, push_own, Ht, Ei.
    destruct (clean (PGroup vs opt al cl')) eqn:Ec.
    + (* this group is fine, the rest is not *)
      simpl in Hc. simpl in Ec. rewrite forallb_forall in Ec.
      destruct (variants_ok text order defs n prod opt al cl _ eq_refl vs variants Fv) with (f := @None nat) (acc := @nil prod_build) as (f' & news & E & Hn1 & _ & _).
      { intros v Hv. apply Ec in Hv. apply andb_true_iff in Hv. destruct Hv as [Hv _]. now destruct (span_eqb_spec (snd v) (0, 0)). }
      { intros gs' v Hv Hrep. apply single_all; auto.
        - apply psize_in in Hv. simpl in Es. lia.
        - apply Ec in Hv. now apply andb_true_iff in Hv. }
      rewrite E. cbn [bind app]. specialize (Hn1 Hne).
      unfold set_sub_aliases. destruct news as [|p0 rest]; [easy|]. cbn [map].
      destruct opt.
      * change (pb_aliases (with_aliases prod ?x)) with x. rewrite last_own. cbn [bind nth_error expect]. now apply Hmany.
      * cbn [bind]. now apply Hmany.
    + (* some alternative is not *)
      match goal with |- (do '(a, b) <- foldM ?F _ (?P, _); @?K a b) = _ => set (step := F); set (p1 := P) end.
      assert (H : forall f acc, foldM step variants (with_aliases prod (pb_aliases prod ++ tail al (if opt then Some true else None) (List.length (pb_production prod)) f cl), acc) = Panic P_assert).
      { assert (Hb : list_sum (map (fun v : list pat * span => S (list_sum (map size (fst v)))) vs) < n) by (simpl in Es; lia).
        clear p1 Hmany Ei Hne Es Hn Hp Hc. simpl in Ec.
        induction Fv as [|[gs' a] v variants vs [Esn Fr] Fv IHv]; intros f acc; [easy|].
        simpl in Ec, Hb, Esn, Fr. cbn [foldM]. unfold step at 1. rewrite Esn.
        destruct (span_eqb (snd v) (0, 0)) eqn:Ez; [|reflexivity]. simpl in Ec.
        change (pb_aliases (with_aliases prod ?x)) with x. rewrite last_own. cbn [bind].
        destruct (forallb clean (fst v)) eqn:Ev.
        - destruct (single_all text order defs Ho n (fst v) gs') with (prod := with_aliases (with_aliases prod
            (pb_aliases prod ++ tail al (if opt then Some true else None) (List.length (pb_production prod)) f cl))
            (pb_aliases prod ++ map (set_final (Some (List.length (pb_production (with_aliases prod (pb_aliases prod ++ tail al (if opt then Some true else None) (List.length (pb_production prod)) f cl))) + List.length gs')))
              (tail al (if opt then Some true else None) (List.length (pb_production prod)) f cl))) as (out & Eo & _); auto.
          { unfold psize. lia. }
          rewrite Eo. cbn [bind]. 
          match goal with |- foldM step variants (with_aliases (with_aliases prod ?x) (_ ++ map ?G ?L), _) = _ =>
            change (with_aliases (with_aliases prod x) (pb_aliases prod ++ map G L)) with (with_aliases prod (pb_aliases prod ++ map G L));
            assert (Et : exists f2, map G L = tail al (if opt then Some true else None) (List.length (pb_production prod)) f2 cl) by (destruct al; [eexists; reflexivity|exists None; reflexivity]);
            destruct Et as (f2 & Et); rewrite Et end.
          apply IHv; auto. lia.
        - rewrite IH with (ps := fst v); auto. unfold psize. lia. }
      unfold p1. rewrite H. reflexivity.
Qed.

(** ** a whole alternative *)
Lemma many_all n ps gs base : psize ps < n -> rep_pipe gs ps -> clean_pipe ps = true ->
  exists out, many text order defs n [base] gs = Val out /\ Forall2 (res_ok text defs base ps) out (runs ps).
Proof.
  intros Hn Hr Hc. destruct (single_all text order defs Ho n ps gs Hn Hr Hc base) as (out & E & _ & F).
  destruct gs as [|g gs].
  - exists [base]. split; [reflexivity|]. inversion Hr; subst. constructor; [apply res_ok_nil|constructor].
  - exists out. split; [|exact F]. unfold many. cbn [mapM]. rewrite E. cbn [bind]. simpl. now rewrite app_nil_r.
Qed.
Lemma many_unclean n ps gs base : psize ps < n -> rep_pipe gs ps -> clean_pipe ps = false -> many text order defs n [base] gs = Panic P_assert.
Proof.
  intros Hn Hr Hc. pose proof (single_unclean n ps gs base Hn Hr Hc) as E.
  destruct gs as [|g gs]; [inversion Hr; subst; easy|]. unfold many. cbn [mapM]. now rewrite E.
Qed.
Lemma many_empty n base : many text order defs n [base] [] = Val [base].
Proof. reflexivity. Qed.

(** more fuel, same answer *)
Lemma rle_mapM {A B} (f f' : A -> res B) l : (forall x, rle (f x) (f' x)) -> rle (mapM f l) (mapM f' l).
Proof. intros H. induction l as [|x l IH]; simpl; [apply rle_refl|]. apply rle_bind; auto. intros y. apply rle_bind; auto. intros; apply rle_refl. Qed.
Lemma single_rle n : forall m prod gs, n <= m -> rle (single n prod gs) (single m prod gs).
Proof.
  induction n as [|n IH]; intros m prod gs L; [apply rle_fuel|]. destruct m as [|m]; [lia|]. assert (L' : n <= m) by lia.
  assert (Hm : forall origin rest, rle
    match rest with [] => Val origin | _ => do l <- mapM (fun o => single n o rest) origin; Val (List.concat l) end
    match rest with [] => Val origin | _ => do l <- mapM (fun o => single m o rest) origin; Val (List.concat l) end).
  { intros origin [|g rest]; [apply rle_refl|]. apply rle_bind; [|intros; apply rle_refl]. apply rle_mapM. intros o. now apply IH. }
  cbn [Wop.single]. destruct gs as [|g rest]; [apply rle_refl|].
  destruct (g_ast g); try apply rle_refl.
  destruct (tk_ty item); try apply rle_refl.
  - destruct optional; [|now apply IH]. apply rle_bind; [apply rle_refl|]. intros a. apply Hm.
  - destruct (g_ast item); try apply rle_refl.
    apply rle_bind.
    + apply rle_foldM. intros [p ps] [v a]. destruct (span_eqb a (0, 0)); [|apply rle_refl].
      apply rle_bind; [apply rle_refl|]. intros x. apply rle_bind; [now apply IH|]. intros; apply rle_refl.
    + intros [p ps]. apply rle_bind; [apply rle_refl|]. intros qs. apply Hm.
  - destruct optional; [|now apply IH]. apply rle_bind; [apply rle_refl|]. intros a. apply Hm.
Qed.
Lemma many_rle n m origin gs : n <= m -> rle (many text order defs n origin gs) (many text order defs m origin gs).
Proof.
  intros L. unfold many. destruct gs; [apply rle_refl|]. apply rle_bind; [|intros; apply rle_refl]. apply rle_mapM. intros. now apply single_rle.
Qed.
End Defs.

Lemma process_rle n m b g : n <= m -> rle (process text order n b g) (process text order m b g).
Proof.
  intros L. unfold process. destruct (g_ast g); try apply rle_refl. apply rle_foldM. intros b' x.
  destruct (g_ast x); try apply rle_refl. unfold rule_decl. apply rle_bind; [|intros; apply rle_refl].
  apply rle_mapM. intros [pipe cb]. destruct (String.eqb _ _); [apply rle_refl|]. now apply many_rle.
Qed.

(** ** bindings *)
Definition in_range (n : nat) (e : env) : Prop :=
  forall x, In x e -> match snd x with (i, None) => i < n | (i, Some f) => i <= f /\ f <= n end.
Lemma in_range_app n e e' : in_range n e -> in_range n e' -> in_range n (e ++ e').
Proof. intros H1 H2 x Hx. apply in_app_iff in Hx. destruct Hx as [Hx|Hx]; [exact (H1 x Hx)|exact (H2 x Hx)]. Qed.
Lemma in_range_shift n k e : in_range n e -> in_range (k + n) (shift k e).
Proof.
  intros H x Hx. unfold shift in Hx. rewrite in_map_iff in Hx. destruct Hx as ([a [i f]] & <- & Hy). apply H in Hy. simpl in *.
  destruct f as [f|]; simpl; lia.
Qed.
Lemma in_range_le n m e : n <= m -> in_range n e -> in_range m e.
Proof. intros L H x Hx. apply H in Hx. destruct (snd x) as [i [f|]]; lia. Qed.
Lemma runs_range ps : forall r, In r (runs ps) -> in_range (List.length (fst r)) (snd r).
Proof.
  assert (A : forall ps0 r1 r2, in_range (List.length (fst r1)) (snd r1) -> (forall r, In r (runs ps0) -> in_range (List.length (fst r)) (snd r)) -> In r2 (runs ps0) ->
    in_range (List.length (fst (run_app r1 r2))) (snd (run_app r1 r2))).
  { intros ps0 r1 r2 H1 H2 Hr. unfold run_app. simpl. rewrite app_length. apply in_range_app.
    - eapply in_range_le; [|exact H1]. lia.
    - apply in_range_shift. now apply H2. }
  induction ps as [|s o a c ps IH|vs o a c ps Hv IH] using pipe_ind; intros r Hr.
  - destruct Hr as [<-|[]]. intros x [].
  - change (runs (PSym s o a c :: ps)) with (flat_map (fun r => map (run_app r) (runs ps)) (runs_item (PSym s o a c))) in Hr.
    apply in_flat_map in Hr. destruct Hr as (r1 & H1 & H2). apply in_map_iff in H2. destruct H2 as (r2 & <- & H2).
    apply (A ps); auto. simpl in H1. destruct H1 as [<-|H1].
    + destruct a; simpl; intros x Hx; [destruct Hx as [<-|[]]; simpl; lia|easy].
    + destruct o; [|easy]. destruct H1 as [<-|[]]. intros x [].
  - change (runs (PGroup vs o a c :: ps)) with (flat_map (fun r => map (run_app r) (runs ps)) (runs_item (PGroup vs o a c))) in Hr.
    apply in_flat_map in Hr. destruct Hr as (r1 & H1 & H2). apply in_map_iff in H2. destruct H2 as (r2 & <- & H2).
    apply (A ps); auto. rewrite runs_item_group in H1. apply in_app_iff in H1. destruct H1 as [H1|H1].
    + apply in_map_iff in H1. destruct H1 as (r0 & <- & H0). apply in_flat_map in H0. destruct H0 as (v & Hv1 & Hv2). simpl.
      apply in_range_app; [|now apply (Hv v)]. destruct a; simpl; intros x Hx; [destruct Hx as [<-|[]]; simpl; lia|easy].
    + destruct o; [|easy]. destruct H1 as [<-|[]]. intros x [].
Qed.
Lemma place_in n e x : place text n e = Some x -> exists a, In (a, x) e.
Proof.
  induction e as [|[a y] e IH]; simpl; [easy|]. destruct (String.eqb _ _).
  - intros [= ->]. exists a. now left.
  - intros H. destruct (IH H) as (b & Hb). exists b. now right.
Qed.
Lemma filter_one (L : list item_alias) n : NoDup (map (fun a => text (a_alias a)) L) -> In n (map (fun a => text (a_alias a)) L) ->
  exists a, In a L /\ text (a_alias a) = n /\ filter (fun b => String.eqb (bd_name b) n) (map (write_alias text) L) = [write_alias text a].
Proof.
  induction L as [|a L IH]; simpl; [easy|]. intros N Hn. inversion N as [|? ? Ha N']; subst.
  destruct (String.eqb_spec (text (a_alias a)) n) as [E|E].
  - exists a. split; [now left|]. split; [easy|]. f_equal. clear - Ha E. rewrite E in Ha.
    induction L as [|b L IH]; simpl in *; [reflexivity|]. destruct (String.eqb_spec (text (a_alias b)) n); [tauto|]. apply IH. tauto.
  - destruct Hn as [Hn|Hn]; [easy|]. destruct (IH N' Hn) as (b & H1 & H2 & H3). exists b. auto.
Qed.

Lemma res_bound defs cb ty ps p r : In r (runs ps) -> res_ok text defs (mkProd [] cb ty []) ps p r -> good text ps -> bound_right text ps p r.
Proof.
  intros Hr (_ & _ & _ & _ & R5) G. destruct (R5 G) as (L & E & U & M & Sp & F); [intros a []|]. simpl in E.
  rewrite shift_0 in F. unfold bound_right. rewrite E. split.
  - intros b Hb. rewrite in_map_iff in Hb. destruct Hb as (a & <- & Ha). simpl. apply M. now apply (in_map (fun a => text (a_alias a))).
  - intros n Hn. apply M in Hn. destruct (filter_one L n U Hn) as (a & Ha & <- & Ef). exists (write_alias text a). split; [exact Ef|].
    intros A toks Hl Hne. specialize (F a Ha). unfold fits in F. unfold expected, run_binding. simpl.
    destruct (place text (text (a_alias a)) (snd r)) as [[i f]|] eqn:Ep.
    + destruct F as (F1 & F2 & F3). rewrite F1, F2, F3. destruct (place_in _ _ _ Ep) as (s & Hs).
      apply (runs_range ps r Hr) in Hs. simpl in Hs. unfold fetch. destruct f as [f|].
      * rewrite Hl. destruct Hs as [Hs1 Hs2]. apply Nat.leb_le in Hs1, Hs2. rewrite Hs1, Hs2. cbn [andb].
        destruct (existsb _ _); reflexivity.
      * destruct (nth_error toks i) as [t|] eqn:En.
        -- simpl. destruct (existsb _ _); reflexivity.
        -- apply nth_error_None in En. lia.
    + destruct F as [F1 _]. rewrite F1. destruct toks; [easy|reflexivity].
Qed.

(** ** declarations *)
Definition alts_ok (alts : list (list pat * span)) : bool := forallb (fun a => negb (String.eqb (text (snd a)) "") && clean_pipe (fst a)) alts.
Definition altsize (alts : list (list pat * span)) : nat := list_sum (map (fun a => psize (fst a)) alts).
Definition declsize (d : decl) : nat := match d with DRule _ _ alts => altsize alts | _ => 0 end.

Lemma resolve_app ds1 ds2 s : resolve text (ds1 ++ ds2) s = if existsb (String.eqb (text s)) (alias_keys text ds1) then resolve text ds1 s else resolve text ds2 s.
Proof.
  induction ds1 as [|d ds1 IH]; simpl; [reflexivity|]. destruct d as [name ty alts|u|tk alias]; simpl; try exact IH.
  rewrite IH. rewrite (String.eqb_sym (text s)). destruct (String.eqb (text tk) (text s)); reflexivity.
Qed.

Lemma alts_val n defs ds1 ty rule alts : (forall s, definition text defs s = resolve text ds1 s) ->
  Forall2 (fun a b => snd a = snd b /\ rep_pipe (fst a) (fst b)) rule alts -> altsize alts < n -> alts_ok alts = true ->
  exists l, mapM (fun '(pipe, cb) => if String.eqb (text cb) "" then Panic P_assert else many text order defs n [mkProd [] cb ty []] pipe) rule = Val l
    /\ builds text ds1 ty alts (List.concat l) /\ binds text alts (List.concat l).
Proof.
  intros Hd F Hn Hok. unfold builds, binds. induction F as [|[gs cb] [ps cb'] rule alts [E Hr] F IH].
  - exists []. repeat split; constructor.
  - simpl in E, Hr. subst cb'. simpl in Hok. apply andb_true_iff in Hok. destruct Hok as [Hok Hoks].
    apply andb_true_iff in Hok. destruct Hok as [Hcb Hcl]. apply negb_true_iff in Hcb.
    unfold altsize in Hn. simpl in Hn.
    destruct IH as (l & El & Fl & Fb); [unfold altsize; lia|easy|].
    destruct (many_all defs n ps gs (mkProd [] cb ty [])) as (out & Eo & Fo); auto; [lia|].
    exists (out :: l). cbn [mapM]. rewrite Hcb, Eo. cbn [bind]. rewrite El. split; [reflexivity|].
    split.
    + simpl. apply Forall2_app; [|exact Fl].
      apply Forall2_map_r. rewrite <- runs_expand. apply Forall2_map_r.
      eapply Forall2_imp; [|exact Fo]. intros p r (R1 & R2 & R3 & _). simpl in *. repeat split; auto.
      rewrite R1. apply map_ext. auto.
    + simpl. apply Forall2_app; [|exact Fb]. apply Forall2_map_r.
      assert (Fin : Forall2 (fun p r => In p out /\ In r (runs ps) /\ res_ok text defs (mkProd [] cb ty []) ps p r) out (runs ps)).
      { clear - Fo. remember (runs ps) as R eqn:ER. clear ER. induction Fo; constructor; auto.
        - split; [now left|split; [now left|easy]].
        - eapply Forall2_imp; [|exact IHFo]. intros ? ? (? & ? & ?). split; [now right|split; [now right|easy]]. }
      eapply Forall2_imp; [|exact Fin]. intros p r (Hp & Hin & R). split.
      * intros G. simpl in *. eapply res_bound; eauto.
      * destruct (many_typed text order Ho defs n cb ty gs ps out Hr Eo p Hp) as [H1 H2]. split; [exact H1|split; [exact H2|]].
        exact (many_names text order Ho defs n cb ty gs ps out Hr Eo p Hp).
Qed.
Lemma alts_panic n defs ty rule alts :
  Forall2 (fun a b => snd a = snd b /\ rep_pipe (fst a) (fst b)) rule alts -> altsize alts < n -> alts_ok alts = false ->
  mapM (fun '(pipe, cb) => if String.eqb (text cb) "" then Panic P_assert else many text order defs n [mkProd [] cb ty []] pipe) rule = Panic P_assert.
Proof.
  intros F Hn Hok. induction F as [|[gs cb] [ps cb'] rule alts [E Hr] F IH]; [easy|].
  simpl in E, Hr. subst cb'. simpl in Hok. unfold altsize in Hn. simpl in Hn. cbn [mapM].
  destruct (String.eqb (text cb) ""); [reflexivity|]. simpl in Hok.
  destruct (clean_pipe ps) eqn:Hc.
  - destruct (many_all defs n ps gs (mkProd [] cb ty [])) as (out & Eo & Fo); auto; [lia|].
    rewrite Eo. cbn [bind]. rewrite IH; auto. unfold altsize. lia.
  - rewrite (many_unclean defs n ps gs); auto. lia.
Qed.

Definition decl_ok (d : decl) : Prop := match d with DRule _ _ alts => alts_ok alts = true | _ => True end.
Lemma valid_ok ds : valid text ds <-> NoDup (rule_names text ds) /\ NoDup (alias_keys text ds) /\ Forall decl_ok ds.
Proof.
  unfold valid. rewrite Forall_forall. split; intros (H1 & H2 & H3); repeat split; auto.
  - intros [name ty alts|u|tk al] Hd; simpl; auto. unfold alts_ok. rewrite forallb_forall. intros [pipe cb] Ha.
    destruct (H3 name ty alts pipe cb Hd Ha) as [Hn Hc]. simpl. rewrite Hc, andb_true_r. apply negb_true_iff.
    now apply String.eqb_neq.
  - apply H3 in H. simpl in H. unfold alts_ok in H. rewrite forallb_forall in H. apply H in H0. simpl in H0.
    apply andb_true_iff in H0. destruct H0 as [H0 _]. apply negb_true_iff in H0. now apply String.eqb_neq.
  - apply H3 in H. simpl in H. unfold alts_ok in H. rewrite forallb_forall in H. apply H in H0. simpl in H0.
    now apply andb_true_iff in H0.
Qed.

Definition inv (b : builder) (ds : list decl) : Prop :=
  records text b ds /\ valid text ds /\ msorted (b_rules b) /\ forall s, definition text (b_aliases b) s = resolve text ds s.

Lemma NoDup_snoc {A} (l : list A) a : NoDup (l ++ [a]) <-> NoDup l /\ ~ In a l.
Proof.
  split.
  - intros H. split; [|intros Ha; apply (NoDup_app_remove' _ _ H a Ha); now left].
    apply NoDup_remove_1 in H. now rewrite app_nil_r in H.
  - intros [H1 H2]. apply NoDup_app_intro; auto; [repeat constructor; easy|]. intros x Hx [<-|[]]. easy.
Qed.
Lemma rule_names_app l m : rule_names text (l ++ m) = rule_names text l ++ rule_names text m.
Proof. apply flat_map_app. Qed.
Lemma alias_keys_app l m : alias_keys text (l ++ m) = alias_keys text l ++ alias_keys text m.
Proof. apply flat_map_app. Qed.

Lemma snoc_split {A} (ds ds1 : list A) d d' ds2 : ds ++ [d] = ds1 ++ d' :: ds2 ->
  (ds1 = ds /\ d' = d /\ ds2 = []) \/ exists ds2', ds2 = ds2' ++ [d] /\ ds = ds1 ++ d' :: ds2'.
Proof.
  intros E. destruct ds2 as [|x ds2] using rev_ind.
  - left. apply app_inj_tail in E. destruct E as [-> ->]. auto.
  - right. exists ds2. change (d' :: ds2 ++ [x]) with ((d' :: ds2) ++ [x]) in E. rewrite app_assoc in E.
    apply app_inj_tail in E. destruct E as [-> ->]. auto.
Qed.

Definition step (n : nat) (b : builder) (g : gramem) : res builder :=
  match g_ast g with
  | ARuleDecl ident ty rule => rule_decl text order n b ident ty rule
  | AImport s => Val (use_decl b s)
  | AAlias tk alias => token_decl text b tk alias
  | _ => Panic P_unlisted
  end.

Lemma step_ok n b ds g d : inv b ds -> rep_decl g d -> declsize d < n ->
  (exists b', step n b g = Val b' /\ inv b' (ds ++ [d])) \/ (step n b g = Panic P_assert /\ forall ds2, ~ valid text (ds ++ d :: ds2)).
Proof.
  intros ((I1 & I2 & I3 & I4) & Hv & Hs & Hd) R Hn. apply valid_ok in Hv. destruct Hv as (V1 & V2 & V3).
  destruct R as [g name ty rule alts E F|g s E|g tk alias E]; unfold step; rewrite E.
  - unfold rule_decl. destruct (alts_ok alts) eqn:Ea.
    + destruct (alts_val n (b_aliases b) ds ty rule alts Hd F Hn Ea) as (l & El & Fl & Fb). rewrite El. cbn [bind].
      destruct (bm_get (text name) (b_rules b)) as [old|] eqn:Eg.
      * right. split; [reflexivity|]. intros ds2 Hv. apply valid_ok in Hv. destruct Hv as (W1 & _).
        rewrite rule_names_app in W1. simpl in W1. apply NoDup_remove_2 in W1. apply W1. apply in_app_iff. left. apply I3. eauto.
      * left. eexists. split; [reflexivity|]. split; [|split; [|split]].
        -- split; [|split; [|split]]; simpl.
           ++ unfold imports. rewrite flat_map_app. simpl. now rewrite app_nil_r.
           ++ intros k v. rewrite I2. split; intros (tk & H1 & H2); exists tk; split; auto.
              ** apply in_app_iff. now left.
              ** apply in_app_iff in H1. destruct H1 as [H1|[H1|[]]]; [easy|discriminate].
           ++ intros nm. rewrite rule_names_app, in_app_iff, <- I3. simpl. rewrite bm_get_insert.
              destruct (eqb_spec nm (text name)) as [->|Hne].
              ** split; [auto|eauto].
              ** split; [intros H; now left|]. intros [H|[<-|[]]]; [easy|easy].
           ++ intros ds1 name' ty' alts' ds2 Eds. apply snoc_split in Eds. destruct Eds as [(-> & Ed & ->)|(ds2' & -> & Eds)].
              ** injection Ed as -> -> ->. exists (List.concat l). split; [apply bm_get_insert_eq|now split].
              ** destruct (I4 _ _ _ _ _ Eds) as (prods & H1 & H2). exists prods. split; [|easy].
                 rewrite bm_get_insert_neq; [easy|]. intros Hx. rewrite Hx in H1. congruence.
        -- apply valid_ok. rewrite rule_names_app, alias_keys_app. simpl. rewrite app_nil_r. split; [|split; [easy|]].
           ++ apply NoDup_snoc. split; [easy|]. rewrite <- I3. intros (x & Hx). congruence.
           ++ apply Forall_app. split; [easy|]. constructor; [easy|constructor].
        -- simpl. now apply bm_insert_sorted.
        -- intros s. simpl. rewrite Hd, resolve_app. simpl. destruct (existsb _ _) eqn:Ex; [reflexivity|].
           clear - Ex. induction ds as [|d ds IH]; [reflexivity|]. destruct d; simpl in *; auto.
           rewrite String.eqb_sym in Ex. destruct (String.eqb _ _); [easy|]. auto.
    + right. rewrite (alts_panic n (b_aliases b) ty rule alts F Hn Ea). split; [reflexivity|].
      intros ds2 Hv. apply valid_ok in Hv. destruct Hv as (_ & _ & W). apply Forall_app in W. destruct W as [_ W]. inversion W; subst. simpl in *. congruence.
  - left. eexists. split; [reflexivity|]. split; [|split; [|split]]; simpl.
    + split; [|split; [|split]]; simpl.
      * unfold imports in *. rewrite flat_map_app. simpl. now rewrite I1.
      * intros k v. rewrite I2. split; intros (tk & H1 & H2); exists tk; split; auto.
        -- apply in_app_iff. now left.
        -- apply in_app_iff in H1. destruct H1 as [H1|[H1|[]]]; [easy|discriminate].
      * intros nm. rewrite I3, rule_names_app. simpl. now rewrite app_nil_r.
      * intros ds1 name' ty' alts' ds2 Eds. apply snoc_split in Eds. destruct Eds as [(-> & Ed & ->)|(ds2' & -> & Eds)]; [discriminate|].
        apply (I4 _ _ _ _ _ Eds).
    + apply valid_ok. rewrite rule_names_app, alias_keys_app. simpl. rewrite !app_nil_r. split; [easy|]. split; [easy|].
      apply Forall_app. split; [easy|]. constructor; [easy|constructor].
    + easy.
    + intros x. rewrite Hd, resolve_app. simpl. destruct (existsb _ _) eqn:Ex; [reflexivity|].
      clear - Ex. induction ds as [|d ds IH]; [reflexivity|]. destruct d; simpl in *; auto.
      rewrite String.eqb_sym in Ex. destruct (String.eqb _ _); [easy|]. auto.
  - unfold token_decl. destruct (bm_get (text tk) (b_aliases b)) as [old|] eqn:Eg.
    + right. split; [reflexivity|]. intros ds2 Hv. apply valid_ok in Hv. destruct Hv as (_ & W & _).
      rewrite alias_keys_app in W. simpl in W. apply NoDup_remove_2 in W. apply W. apply in_app_iff. left.
      apply I2 in Eg. destruct Eg as (tk' & H1 & <-). unfold alias_keys. apply in_flat_map. exists (DAlias tk' old). split; [easy|now left].
    + left. eexists. split; [reflexivity|].
      assert (Hnew : ~ In (text tk) (alias_keys text ds)).
      { intros H. unfold alias_keys in H. apply in_flat_map in H. destruct H as (d & Hd1 & Hd2). destruct d as [| |tk' al']; simpl in Hd2; try easy.
        destruct Hd2 as [Hd2|[]]. assert (Hg : bm_get (text tk) (b_aliases b) = Some al') by (apply I2; exists tk'; auto). congruence. }
      split; [|split; [|split]]; simpl.
      * split; [|split; [|split]]; simpl.
        -- unfold imports. rewrite flat_map_app. simpl. now rewrite app_nil_r.
        -- intros k v. rewrite bm_get_insert. destruct (eqb_spec k (text tk)) as [->|Hne].
           ++ split.
              ** intros [= ->]. exists tk. split; [apply in_app_iff; right; now left|reflexivity].
              ** intros (tk' & H1 & H2). apply in_app_iff in H1. destruct H1 as [H1|[H1|[]]]; [|now injection H1 as -> ->].
                 exfalso. apply Hnew. rewrite <- H2. unfold alias_keys. apply in_flat_map. exists (DAlias tk' v). split; [easy|now left].
           ++ rewrite I2. split; intros (tk' & H1 & H2); exists tk'; split; auto.
              ** apply in_app_iff. now left.
              ** apply in_app_iff in H1. destruct H1 as [H1|[H1|[]]]; [easy|]. injection H1 as -> ->. congruence.
        -- intros nm. rewrite I3, rule_names_app. simpl. now rewrite app_nil_r.
        -- intros ds1 name' ty' alts' ds2 Eds. apply snoc_split in Eds. destruct Eds as [(-> & Ed & ->)|(ds2' & -> & Eds)]; [discriminate|].
           apply (I4 _ _ _ _ _ Eds).
      * apply valid_ok. rewrite rule_names_app, alias_keys_app. simpl. rewrite app_nil_r. split; [easy|]. split.
        -- apply NoDup_snoc. now split.
        -- apply Forall_app. split; [easy|]. constructor; [easy|constructor].
      * easy.
      * intros x. unfold definition. simpl. rewrite bm_get_insert, resolve_app. simpl.
        destruct (eqb_spec (text x) (text tk)) as [Ex|Ex].
        -- rewrite Ex. replace (existsb (String.eqb (text tk)) (alias_keys text ds)) with false.
           ++ now rewrite String.eqb_refl.
           ++ symmetry. now apply existsb_string_false.
        -- specialize (Hd x). unfold definition in Hd. rewrite Hd.
           destruct (String.eqb_spec (text tk) (text x)) as [Ey|Ey]; [congruence|].
           destruct (existsb _ _) eqn:Ez; [reflexivity|].
           clear - Ez. induction ds as [|d ds IH]; [reflexivity|]. destruct d; simpl in *; auto.
           rewrite String.eqb_sym in Ez. destruct (String.eqb _ _); [easy|]. auto.
Qed.

Lemma fold_ok n l ds2 : Forall2 rep_decl l ds2 -> list_sum (map declsize ds2) < n -> forall b ds1, inv b ds1 ->
  (exists b', foldM (step n) l b = Val b' /\ inv b' (ds1 ++ ds2)) \/ (foldM (step n) l b = Panic P_assert /\ ~ valid text (ds1 ++ ds2)).
Proof.
  induction 1 as [|g d l ds2 R F IH]; intros Hn b ds1 Hi.
  - left. exists b. rewrite app_nil_r. auto.
  - simpl in Hn. cbn [foldM]. destruct (step_ok n b ds1 g d Hi R) as [(b' & E & Hi')|[E Hx]]; [lia| |].
    + rewrite E. cbn [bind]. destruct (IH ltac:(lia) b' (ds1 ++ [d]) Hi') as [(b2 & E2 & Hi2)|[E2 Hx]].
      * left. exists b2. rewrite <- app_assoc in Hi2. auto.
      * right. rewrite <- app_assoc in Hx. auto.
    + right. rewrite E. split; [reflexivity|]. apply Hx.
Qed.

Lemma inv_nil : inv builder_new [].
Proof.
  split; [|split; [|split]].
  - split; [reflexivity|]. split; [|split]; simpl.
    + intros k v. split; [discriminate|]. intros (tk & [] & _).
    + intros nm. split; [|easy]. intros (x & Hx). discriminate.
    + intros ds1 ? ? ? ? E. now destruct ds1.
  - apply valid_ok. repeat split; constructor.
  - exact Logic.I.
  - reflexivity.
Qed.

(** [process] records exactly valid files *)
Theorem process_spec g ds : rep_file g ds ->
  (valid text ds -> exists b F, (forall fuel, F <= fuel -> process text order fuel builder_new g = Val b) /\ records text b ds /\ msorted (b_rules b)) /\
  (~ valid text ds -> exists F, forall fuel, F <= fuel -> process text order fuel builder_new g = Panic P_assert).
Proof.
  intros (l & E & F).
  assert (Ep : forall n, process text order n builder_new g = foldM (step n) l builder_new) by (intros n; unfold process; rewrite E; reflexivity).
  set (n := S (list_sum (map declsize ds))).
  destruct (fold_ok n l ds F ltac:(unfold n; lia) builder_new [] inv_nil) as [(b & Eb & Hi)|[Eb Hx]]; simpl in *; rewrite <- Ep in Eb.
  - destruct Hi as (Hr & Hv & Hs & _). split; [|easy]. intros _. exists b, n. split; [|auto].
    intros fuel L. apply (rle_val _ _ _ (process_rle n fuel builder_new g L) Eb).
  - split; [easy|]. intros _. exists n. intros fuel L. apply (rle_panic _ _ _ (process_rle n fuel builder_new g L) Eb).
Qed.
End P.
