(** What is emitted for alternatives whose names differ, and when it is right. *)
From Coq Require Import List Bool Arith Lia String Permutation.
From Verif Require Import BTree Model Strings Base SpecP Wop WopSpec WopP WopProc WopParse WopDump WopExport WopShape WopExactSpec.
Import ListNotations.
Local Open Scope list_scope.
Local Open Scope nat_scope.

(** ** shapes and places together *)
Definition bo : Type := (sh * (list span * env))%type.
Definition bo_app (b b' : bo) : bo := (sh_app (fst b) (fst b'), run_app (snd b) (snd b')).
Definition bo_nil : bo := (([], fun _ => []), ([], [])).
Definition bo_kept (vs : list (list pat * span)) (o : bool) (a : option span) (v : list pat * span) (b : bo) : bo :=
  ((fst (fst b), fun n => tail a (if o then Some true else None) n (Some (n + List.length (fst v))) true ++ fill (inner vs) (snd (fst b) n)),
   (fst (snd b), at_own a (Some (List.length (fst (snd b)))) ++ snd (snd b))).
Definition bo_drop (vs : list (list pat * span)) (a : option span) : bo :=
  (([], fun n => tail a (Some false) n (Some (n + last_len vs)) true ++ map (absent (is_some a)) (inner vs)), ([], [])).
Fixpoint both_item (p : pat) : list bo :=
  match p with
  | PSym s o a _ => (([s], fun n => tail a (if o then Some true else None) n None true), ([s], at_own a None)) ::
      (if o then [(([], fun n => tail a (Some false) n None true), ([], []))] else [])
  | PGroup vs o a _ =>
      flat_map (fun v => map (bo_kept vs o a v)
        ((fix pipe ps := match ps with
          | [] => [bo_nil]
          | p :: ps' => flat_map (fun r => map (bo_app r) (pipe ps')) (both_item p)
          end) (fst v))) vs ++ (if o then [bo_drop vs a] else [])
  end.
Fixpoint both (ps : list pat) : list bo :=
  match ps with
  | [] => [bo_nil]
  | p :: ps' => flat_map (fun r => map (bo_app r) (both ps')) (both_item p)
  end.
Lemma both_group vs o a c : both_item (PGroup vs o a c) = flat_map (fun v => map (bo_kept vs o a v) (both (fst v))) vs ++ (if o then [bo_drop vs a] else []).
Proof. reflexivity. Qed.

Lemma both_proj ps : map fst (both ps) = shapes ps /\ map snd (both ps) = runs ps.
Proof.
  assert (C : forall p ps, (map fst (both_item p) = shapes_item p /\ map snd (both_item p) = runs_item p) -> (map fst (both ps) = shapes ps /\ map snd (both ps) = runs ps) ->
    map fst (both (p :: ps)) = shapes (p :: ps) /\ map snd (both (p :: ps)) = runs (p :: ps)).
  { intros p qs [A1 A2] [B1 B2]. cbn [both shapes runs]. rewrite <- A1, <- A2, <- B1, <- B2, !map_flat_map, !flat_map_map. split; apply flat_map_ext; intros r; rewrite !map_map; reflexivity. }
  induction ps as [|s o a c ps IH|vs o a c ps Hv IH] using pipe_ind; [split; reflexivity| |]; apply C; auto; clear C IH.
  - destruct o; split; reflexivity.
  - rewrite both_group, shapes_group, runs_item_group, !map_app. split; f_equal; try (destruct o; reflexivity); rewrite !map_flat_map; apply flat_map_ext_in; intros v Hiv; destruct (Hv v Hiv) as [A B]; try rewrite <- A; try rewrite <- B; rewrite !map_map; reflexivity.
Qed.
Lemma both_fst b ps : In b (both ps) -> fst (fst b) = fst (snd b).
Proof.
  revert b. induction ps as [|s o a c ps IH|vs o a c ps Hv IH] using pipe_ind; intros b Hb; [now destruct Hb as [<-|[]]| |]; cbn [both] in Hb; apply in_flat_map in Hb as (r & Hr & Hb); apply in_map_iff in Hb as (b' & <- & Hb');
    cbn [bo_app fst sh_app run_app snd]; rewrite (IH _ Hb'); f_equal.
  - cbn [both_item] in Hr. destruct Hr as [<-|Hr]; [reflexivity|]. destruct o; [|easy]. now destruct Hr as [<-|[]].
  - rewrite both_group in Hr. apply in_app_iff in Hr as [Hr|Hr]; [|destruct o; [|easy]; now destruct Hr as [<-|[]]]. apply in_flat_map in Hr as (v & Hiv & Hr). apply in_map_iff in Hr as (b1 & <- & Hb1). exact (Hv v Hiv b1 Hb1).
Qed.

(** ** where the emitted statements come from *)
Section E.
Variable text : span -> string.
Variable order : prod_build -> list prod_build -> list span -> list span.
Variable dbg : bool.
Hypothesis Ho : iterates order.

Definition from_shapes (alts : list (list pat * span)) (prods : list prod_build) : Prop :=
  Forall2 (fun p y => NoDup (pipe_names text (fst (fst y))) -> Permutation (pb_aliases p) (snd (fst (snd y)) 0)) prods (flat_map (fun alt => map (pair alt) (both (fst alt))) alts).

Lemma many_from defs n cb ty gs ps out out' : rep_pipe gs ps -> many text order defs n [mkProd [] cb ty []] gs = Val out -> Forall2 out' out (runs ps) ->
  Forall2 (fun p b => NoDup (pipe_names text ps) -> Permutation (pb_aliases p) (snd (fst b) 0)) out (both ps).
Proof.
  intros Hr E Fl. assert (Hl : List.length out = List.length (both ps)) by (rewrite (Forall2_len _ _ _ Fl), <- (proj2 (both_proj ps)); apply map_length).
  assert (H : NoDup (pipe_names text ps) -> Forall2 (fun p b => Permutation (pb_aliases p) (snd (fst b) 0)) out (both ps)).
  { intros N. assert (F : Forall2 (shaped text defs (mkProd [] cb ty [])) out (shapes ps)).
    { unfold many in E. destruct gs as [|g gs].
      - injection E as <-. inversion Hr; subst. repeat constructor.
      - cbn [mapM] in E. apply bind_val in E as (l & E & E'). injection E' as <-. apply bind_val in E as (x & Ex & E). injection E as <-. cbn [List.concat]. rewrite app_nil_r.
        eapply single_shape; [exact Ho|exact Hr| |exact Ex]. exact N. }
    rewrite <- (proj1 (both_proj ps)) in F. clear - F. revert F. generalize (both ps). intros l. revert out. induction l as [|b l IH]; intros out F; inversion F as [|p ? out0 ? Hs F']; subst; constructor; auto. exact (proj2 Hs). }
  clear - H Hl. revert H Hl. generalize (both ps). intros l. revert out. induction l as [|b l IH]; intros [|p out] H Hl; try discriminate; constructor.
  - intros N. specialize (H N). now inversion H.
  - apply IH; [|now injection Hl]. intros N. specialize (H N). now inversion H.
Qed.

Lemma alts_from n defs ty rule alts l : Forall2 (fun a b => snd a = snd b /\ rep_pipe (fst a) (fst b)) rule alts -> altsize alts < n ->
  mapM (fun '(pipe, cb) => if String.eqb (text cb) "" then Panic P_assert else many text order defs n [mkProd [] cb ty []] pipe) rule = Val l -> from_shapes alts (List.concat l).
Proof.
  intros F. unfold from_shapes. revert l. induction F as [|[gs cb] [ps cb'] rule alts [E Hr] F IH]; intros l Hn El.
  - injection El as <-. constructor.
  - simpl in E, Hr. subst cb'. cbn [mapM] in El. unfold altsize in Hn. simpl in Hn. apply bind_val in El as (out & Eo & El). apply bind_val in El as (ls & Els & El). injection El as <-.
    destruct (String.eqb (text cb) ""); [discriminate|]. cbn [List.concat flat_map]. apply Forall2_app; [|apply IH; auto; unfold altsize; lia].
    apply Forall2_map_r. cbn [fst snd]. destruct (clean_pipe ps) eqn:Hc.
    + destruct (many_all text order Ho defs n ps gs (mkProd [] cb ty [])) as (out' & Eo' & Fo); auto; [lia|]. rewrite Eo in Eo'. injection Eo' as <-. eapply many_from; eauto.
    + rewrite (many_unclean text order Ho defs n ps gs) in Eo; auto; [discriminate|lia].
Qed.

Definition rules_from (b : builder) (ds : list decl) : Prop :=
  forall ds1 name ty alts ds2, ds = ds1 ++ DRule name ty alts :: ds2 -> exists prods, bm_get (text name) (b_rules b) = Some prods /\ from_shapes alts prods.
Lemma step_from n b ds g d b' : rules_from b ds -> rep_decl g d -> declsize d < n -> WopProc.step text order n b g = Val b' -> rules_from b' (ds ++ [d]).
Proof.
  intros H R Hn E ds1 name ty alts ds2 Ed. apply snoc_split in Ed. destruct R as [g nm t rule als Eg F|g s Eg|g tk alias Eg]; unfold WopProc.step in E; rewrite Eg in E.
  - unfold rule_decl in E. apply bind_val in E as (l & El & E). destruct (bm_get (text nm) (b_rules b)) as [old|] eqn:Eb; [discriminate|]. injection E as <-. cbn [b_rules].
    destruct Ed as [(-> & Ed & ->)|(ds2' & -> & Ed)].
    + injection Ed as -> -> ->. exists (List.concat l). split; [apply bm_get_insert_eq|]. eapply alts_from; eauto.
    + destruct (H _ _ _ _ _ Ed) as (prods & H1 & H2). exists prods. split; [|exact H2]. rewrite bm_get_insert_neq; [exact H1|]. intros Hx. rewrite Hx in H1. congruence.
  - injection E as <-. destruct Ed as [(_ & Ed & _)|(ds2' & _ & Ed)]; [discriminate|]. exact (H _ _ _ _ _ Ed).
  - unfold token_decl in E. destruct (bm_get _ _); [discriminate|]. injection E as <-. destruct Ed as [(_ & Ed & _)|(ds2' & _ & Ed)]; [discriminate|]. exact (H _ _ _ _ _ Ed).
Qed.
Lemma fold_from n l ds2 : Forall2 rep_decl l ds2 -> list_sum (map declsize ds2) < n -> forall b ds b', rules_from b ds -> foldM (WopProc.step text order n) l b = Val b' -> rules_from b' (ds ++ ds2).
Proof.
  induction 1 as [|g d l ds2 R F IH]; intros Hn b ds b' H E.
  - injection E as <-. now rewrite app_nil_r.
  - cbn [foldM] in E. apply bind_val in E as (b1 & E1 & E). assert (Hn2 : declsize d < n /\ list_sum (map declsize ds2) < n) by (change (list_sum (map declsize (d :: ds2))) with (declsize d + list_sum (map declsize ds2)) in Hn; lia). change (d :: ds2) with ([d] ++ ds2). rewrite app_assoc. eapply IH; [apply Hn2| |exact E]. apply (step_from n b ds g d b1); auto. apply Hn2.
Qed.
Lemma reads_from ts ds b : reads text order dbg ts (Val (inl b)) -> file_toks ts ds -> rules_from b ds.
Proof.
  intros (F & Hr) Hf. destruct (from_tokens_process text order dbg ts ds Hf) as (g & F0 & (l & Eg & Fl) & Ep).
  set (n := F + F0 + S (list_sum (map declsize ds))). specialize (Hr n ltac:(unfold n; lia)). rewrite Ep in Hr by (unfold n; lia). apply bind_val in Hr as (b' & Eb & [= <-]).
  unfold process in Eb. rewrite Eg in Eb. apply (fold_from n l ds Fl ltac:(unfold n; lia) builder_new [] b'); [|exact Eb]. intros ds1 name ty alts ds2 E. now destruct ds1.
Qed.

Lemma Forall2_nth' {A B} (R : A -> B -> Prop) l m i b : Forall2 R l m -> nth_error m i = Some b -> exists a, nth_error l i = Some a /\ R a b.
Proof. intros F. revert i. induction F as [|a b' l m H F IH]; intros [|i] Hi; try discriminate; simpl in *; [injection Hi as <-; eauto|auto]. Qed.

Lemma both_runs (alts : list (list pat * span)) : map (fun y => (fst y, snd (snd y))) (flat_map (fun alt => map (pair alt) (both (fst alt))) alts) = flat_map (fun alt => map (pair alt) (runs (fst alt))) alts.
Proof. rewrite map_flat_map. apply flat_map_ext. intros a. rewrite map_map, <- (proj2 (both_proj (fst a))), map_map. reflexivity. Qed.

Theorem emits_both ts alt r bs c : emits text order dbg ts alt r bs c -> NoDup (pipe_names text (fst alt)) ->
  exists x, In (x, r) (both (fst alt)) /\ Permutation bs (map (write_alias text) (snd x 0)).
Proof.
  intros (b & rs & ds & ds1 & name & ty & alts & ds2 & fs & i & Hr & Hd & Hf & E & Hin & Hi & Hfs) N.
  destruct (reads_file text order dbg Ho ts ds b Hr Hf) as (_ & _ & Hs). destruct (reads_from ts ds b Hr Hf _ _ _ _ _ E) as (prods & Hb & Fp).
  destruct (WopDump.dump_reductor_spec text b rs rs Hs Hd (Permutation_refl _) _ _ Hb) as (fs' & Hg & _ & Hp).
  assert (Nk : NoDup (map fst rs)) by (rewrite (dump_names _ _ _ Hd); now apply sorted_NoDup).
  apply (of_list_get _ _ _ Nk) in Hin. rewrite Hg in Hin. injection Hin as ->.
  rewrite <- both_runs in Hi. rewrite nth_error_map in Hi. destruct (nth_error (flat_map _ alts) i) as [[alt' [x r']]|] eqn:Ey; [|discriminate]. injection Hi as -> ->.
  destruct (Forall2_nth' _ _ _ _ _ Fp Ey) as (p & Hpi & H). cbn [fst snd] in H. destruct (Hp i p Hpi) as (c' & Hfi & _). rewrite Hfs in Hfi. injection Hfi as -> ->.
  exists x. split; [|apply Permutation_map; auto]. apply nth_error_In, in_flat_map in Ey as (a & _ & Ha). apply in_map_iff in Ha as (y & [= -> ->] & Hy). exact Hy.
Qed.
Theorem emits_all ts alt r0 bs0 c0 : emits text order dbg ts alt r0 bs0 c0 -> NoDup (pipe_names text (fst alt)) ->
  forall x r, In (x, r) (both (fst alt)) -> exists bs c, emits text order dbg ts alt r bs c /\ Permutation bs (map (write_alias text) (snd x 0)).
Proof.
  intros (b & rs & ds & ds1 & name & ty & alts & ds2 & fs & i & Hr & Hd & Hf & E & Hin & Hi & Hfs) N x r Hx.
  destruct (reads_file text order dbg Ho ts ds b Hr Hf) as (_ & _ & Hs). destruct (reads_from ts ds b Hr Hf _ _ _ _ _ E) as (prods & Hb & Fp).
  destruct (WopDump.dump_reductor_spec text b rs rs Hs Hd (Permutation_refl _) _ _ Hb) as (fs' & Hg & _ & Hp).
  assert (Nk : NoDup (map fst rs)) by (rewrite (dump_names _ _ _ Hd); now apply sorted_NoDup).
  pose proof Hin as Hin'. apply (of_list_get _ _ _ Nk) in Hin'. rewrite Hg in Hin'. injection Hin' as ->.
  assert (Ha : In alt alts). { apply nth_error_In, in_flat_map in Hi as (a & Ha & Hi). apply in_map_iff in Hi as (y & [= -> _] & _). exact Ha. }
  assert (Hy : In (alt, (x, r)) (flat_map (fun alt => map (pair alt) (both (fst alt))) alts)) by (apply in_flat_map; exists alt; split; [exact Ha|now apply in_map]).
  apply In_nth_error in Hy as (j & Hj). destruct (Forall2_nth' _ _ _ _ _ Fp Hj) as (p & Hpj & H). cbn [fst snd] in H. destruct (Hp j p Hpj) as (c & Hfj & _).
  exists (map (write_alias text) (pb_aliases p)), c. split; [|apply Permutation_map; auto].
  exists b, rs, ds, ds1, name, ty, alts, ds2, fs, j. repeat (split; [assumption|]). split; [|exact Hfj]. rewrite <- both_runs, nth_error_map, Hj. reflexivity.
Qed.
End E.
