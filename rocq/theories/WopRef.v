(** The [&] before an alias changes nothing. *)
From Coq Require Import List Bool Arith Lia String Permutation.
From Verif Require Import BTree Model Strings Base SpecP Wop WopSpec WopP WopProc WopParse WopExactSpec.
Import ListNotations.
Local Open Scope list_scope.
Local Open Scope nat_scope.

Lemma rep_unref ps : forall gs, rep_pipe gs ps -> rep_pipe gs (map unref ps).
Proof.
  induction ps as [|s o a c ps IH|vs o a c ps Hv IH] using pipe_ind; intros gs H; inversion H as [|g ? gs' ? Hg Hr]; subst; cbn [map unref]; [constructor| |]; (constructor; [|now apply IH]).
  - inversion Hg; subst. eapply rep_sym; eauto.
  - inversion Hg as [|? item ? ? ? variants ? Ea Ht Ei Hne Fv]; subst. eapply rep_group; eauto; [now destruct vs|].
    clear - Fv Hv. induction Fv as [|u v us vs [E F] Fv IHF]; cbn [map]; constructor.
    + cbn [fst snd]. split; [exact E|]. exact (Hv v (or_introl eq_refl) _ F).
    + apply IHF. intros w Hw. apply Hv. now right.
Qed.

Section R.
Variable text : span -> string.
Variable order : prod_build -> list prod_build -> list span -> list span.

Lemma foldM_ext2 {S A B} (R : A -> B -> Prop) (f : S -> A -> res S) (g : S -> B -> res S) l m : Forall2 R l m -> (forall s a b, R a b -> f s a = g s b) -> forall s, foldM f l s = foldM g m s.
Proof. intros F H. induction F as [|a b l m Hab F IH]; intros s; [reflexivity|]. cbn [foldM]. rewrite (H s a b Hab). destruct (g s b); simpl; auto. Qed.
Lemma mapM_ext2 {A B C} (R : A -> B -> Prop) (f : A -> res C) (g : B -> res C) l m : Forall2 R l m -> (forall a b, R a b -> f a = g b) -> mapM f l = mapM g m.
Proof. intros F H. induction F as [|a b l m Hab F IH]; [reflexivity|]. cbn [mapM]. rewrite (H a b Hab), IH. reflexivity. Qed.
Lemma mapM_ext {A C} (f g : A -> res C) l : (forall a, f a = g a) -> mapM f l = mapM g l.
Proof. intros H. induction l as [|a l IH]; [reflexivity|]. cbn [mapM]. now rewrite H, IH. Qed.

(** what is built depends on the pattern only *)
Definition alike (a b : list gramem) : Prop := exists ps, rep_pipe a ps /\ rep_pipe b ps.
Lemma single_alike defs n : forall gs gs' prod, alike gs gs' -> single text order defs n prod gs = single text order defs n prod gs'.
Proof.
  induction n as [|n IH]; intros gs gs' prod (ps & H & H'); [reflexivity|]. destruct ps as [|p ps]; inversion H as [|g ? gs1 ? Hg Hr]; inversion H' as [|g' ? gs1' ? Hg' Hr']; subst; [reflexivity|].
  assert (Hal : alike gs1 gs1') by (exists ps; split; auto).
  assert (Hm : forall origin, match gs1 with [] => Val origin | _ => do l <- mapM (fun o => single text order defs n o gs1) origin; Val (List.concat l) end = match gs1' with [] => Val origin | _ => do l <- mapM (fun o => single text order defs n o gs1') origin; Val (List.concat l) end).
  { intros origin. rewrite (mapM_ext (fun o => single text order defs n o gs1) (fun o => single text order defs n o gs1')) by (intros o; now apply IH). pose proof Hr as L1. pose proof Hr' as L2. apply Forall2_len in L1, L2. destruct gs1, gs1'; try reflexivity; cbn [List.length] in L1, L2; lia. }
  cbn [single]. inversion Hg as [? item opt al cl Ea Ht|? item opt al cl variants vs Ea Ht Ei Hne Fv]; subst; inversion Hg' as [? item' ? ? ? Ea' Ht'|? item' ? ? ? variants' ? Ea' Ht' Ei' Hne' Fv']; subst; rewrite Ea, Ea'.
  - match goal with E : g_span _ = g_span _ |- _ => rewrite E end.
    destruct Ht as [->| ->], Ht' as [->| ->]; cbn zeta; (destruct opt; [match goal with |- (do x <- ?e; _) = _ => destruct e end; cbn [bind]; [apply Hm|reflexivity|reflexivity]|apply IH; exact Hal]).
  - rewrite Ht, Ht', Ei, Ei'. set (prod0 := match al with Some a => push_alias prod _ | None => prod end).
    assert (Fd : forall s, foldM (fun '(prod, prods) '(variant, a) => if span_eqb a (0, 0) then do al <- match al with Some _ => map_last (set_final (Some (List.length (pb_production prod) + List.length variant))) (pb_aliases prod) | None => Val (pb_aliases prod) end; let prod := with_aliases prod al in do news <- single text order defs n prod variant; Val (prod, prods ++ news) else Panic P_assert) variants s =
      foldM (fun '(prod, prods) '(variant, a) => if span_eqb a (0, 0) then do al <- match al with Some _ => map_last (set_final (Some (List.length (pb_production prod) + List.length variant))) (pb_aliases prod) | None => Val (pb_aliases prod) end; let prod := with_aliases prod al in do news <- single text order defs n prod variant; Val (prod, prods ++ news) else Panic P_assert) variants' s).
    { intros s0. apply (foldM_ext2 (fun a b : list gramem * span => snd a = snd b /\ alike (fst a) (fst b))).
      - clear - Fv Fv'. revert variants' Fv'. induction Fv as [|u v us vs [E F] Fv IHF]; intros us' Fv'; inversion Fv' as [|u' ? us'' ? [E' F'] Fv'']; subst; constructor; auto. split; [congruence|]. exists (fst v). auto.
      - intros [p q] [v a] [v' a'] [E A]. cbn [fst snd] in E, A. subst a'. destruct (span_eqb a (0, 0)); [|reflexivity]. assert (El : List.length v = List.length v') by (destruct A as (qs & A1 & A2); apply Forall2_len in A1, A2; lia). rewrite El.
        match goal with |- (do x <- ?e; _) = _ => destruct e end; cbn [bind]; [|reflexivity|reflexivity]. cbn zeta. rewrite (IH v v') by exact A. reflexivity. }
    rewrite Fd. match goal with |- (do x <- ?e; _) = _ => destruct e as [[p q]| |] end; cbn [bind]; try reflexivity. cbn zeta.
    match goal with |- (do x <- ?e; _) = _ => destruct e end; cbn [bind]; [apply Hm|reflexivity|reflexivity].
Qed.
Lemma many_alike defs n gs gs' origin : alike gs gs' -> many text order defs n origin gs = many text order defs n origin gs'.
Proof.
  intros A. unfold many. rewrite (mapM_ext (fun o => single text order defs n o gs) (fun o => single text order defs n o gs')) by (intros o; now apply single_alike). destruct A as (ps & A1 & A2). apply Forall2_len in A1, A2. destruct gs, gs'; try reflexivity; cbn [List.length] in A1, A2; lia.
Qed.
Lemma process_alike n g g' ds : rep_file g ds -> rep_file g' ds -> forall b, process text order n b g = process text order n b g'.
Proof.
  intros (l & E & F) (l' & E' & F') b. unfold process. rewrite E, E'. apply (foldM_ext2 (fun a b => exists d, rep_decl a d /\ rep_decl b d)).
  - clear - F F'. revert l' F'. induction F as [|x d l ds H F IH]; intros l' F'; inversion F' as [|x' ? l'' ? H' F'']; subst; constructor; eauto.
  - intros s x x' (d & H & H'). destruct H as [x nm t rule alts Ex Fr|x s0 Ex|x tk al Ex]; inversion H' as [? ? ? rule' ? Ex' Fr'|? ? Ex'|? ? ? Ex']; subst; rewrite Ex, Ex'; try reflexivity.
    unfold rule_decl. rewrite (mapM_ext2 (fun a b => snd a = snd b /\ alike (fst a) (fst b)) _ (fun '(pipe, cb) => if String.eqb (text cb) "" then Panic P_assert else many text order (b_aliases s) n [mkProd [] cb t []] pipe) rule rule'); [reflexivity| |].
    + clear - Fr Fr'. revert rule' Fr'. induction Fr as [|u v us vs [E F] Fv IHF]; intros us' Fv'; inversion Fv' as [|u' ? us'' ? [E' F'] Fv'']; subst; constructor; auto. split; [congruence|]. exists (fst v). auto.
    + intros [v a] [v' a'] [E1 A]. cbn [fst snd] in E1, A. subst a'. destruct (String.eqb (text a) ""); [reflexivity|]. now apply many_alike.
Qed.
Lemma rep_file_unref g ds : rep_file g ds -> rep_file g (map unref_decl ds).
Proof.
  intros (l & E & F). exists l. split; [exact E|]. clear E. induction F as [|x d l ds H F IH]; cbn [map]; constructor; auto. destruct H as [x nm t rule alts Ex Fr|x s0 Ex|x tk al Ex]; cbn [unref_decl]; [|now apply rep_use|now apply rep_alias].
  eapply rep_rule; [exact Ex|]. clear - Fr. induction Fr as [|u v us vs [E F] Fr IH]; cbn [map]; constructor; auto. cbn [fst snd]. split; [exact E|]. now apply rep_unref.
Qed.

Theorem reads_unref dbg ts ds ts' ds' r : file_toks ts ds -> file_toks ts' ds' -> map unref_decl ds = map unref_decl ds' -> reads text order dbg ts r -> reads text order dbg ts' r.
Proof.
  intros Hf Hf' E (F & H). destruct (from_tokens_process text order dbg ts ds Hf) as (g & F0 & R & Ep). destruct (from_tokens_process text order dbg ts' ds' Hf') as (g' & F1 & R' & Ep').
  exists (F + F0 + F1). intros fuel L. rewrite Ep' by lia. rewrite <- (H fuel) by lia. rewrite Ep by lia. rewrite (process_alike fuel g g' (map unref_decl ds)); [reflexivity| |].
  - now apply rep_file_unref.
  - rewrite E. now apply rep_file_unref.
Qed.
End R.
