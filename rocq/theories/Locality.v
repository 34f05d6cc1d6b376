(** The driver looks at the unread input only through the type of the next token (C39).
    Holds for every table, generated or not. *)
From Coq Require Import List Bool Arith Lia.
From Verif Require Import BTree Model Base LR.
Import ListNotations.

Section Locality.
Context {T : Type} {OT : Ord T} {M : Type}.
Notation dfa := (dfa T M).

Definition setb (d : dfa) (b : list (token T M)) : dfa :=
  mkDfa b (d_states d) (d_items d) (d_table d) (d_top d) (d_finished d) (d_reductors d) (d_eof d).

Lemma setb_same d : setb d (d_buffer d) = d.
Proof. now destruct d. Qed.
Lemma setb_setb d b b' : setb (setb d b) b' = setb d b'.
Proof. reflexivity. Qed.

Lemma pop_local (d : dfa) A pr b : dfa_pop (setb d b) A pr = do d' <- dfa_pop d A pr; Val (setb d' b).
Proof.
  unfold dfa_pop. cbn [setb d_items d_reductors d_states d_buffer d_table d_finished d_eof].
  destruct (length (d_items d) <? length (fst pr)); auto.
  destruct (bm_get A (d_reductors d)) as [fs|]; simpl; auto.
  destruct (nth_error fs (snd pr)) as [f|]; simpl; auto.
  destruct (nth_error (d_states d) (length (fst pr))); simpl; auto.
Qed.

Lemma pop_buffer (d : dfa) A pr (d' : dfa) : dfa_pop d A pr = Val d' -> d_buffer d' = d_buffer d.
Proof.
  unfold dfa_pop. destruct (length (d_items d) <? length (fst pr)); [discriminate|].
  destruct (bm_get A (d_reductors d)) as [fs|]; simpl; [|discriminate].
  destruct (nth_error fs (snd pr)) as [f|]; simpl; [|discriminate].
  destruct (nth_error (d_states d) (length (fst pr))); simpl; [|discriminate]. now intros [= <-].
Qed.

(** one round either consumes exactly one token, or leaves the buffer alone; in both
    cases the rest of the input plays no role *)
Lemma travel_local fuel (d : dfa) s (d' : dfa) o : travel fuel d s = Val (d', o) ->
  (o = Ok /\ exists tok, d_buffer d = tok :: d_buffer d' /\
     forall b, travel fuel (setb d (tok :: b)) s = Val (setb d' b, Ok)) \/
  (d_buffer d' = d_buffer d /\
     forall b, (b = [] <-> d_buffer d = []) -> travel fuel (setb d b) s = Val (setb d' b, o)).
Proof.
  revert d s. induction fuel as [|n IH]; intros d s E; simpl in E; [discriminate|].
  simpl. destruct (nth_error (d_table d) (d_top d)) as [st|] eqn:Er; [|injection E as <- <-; right; auto].
  destruct (bm_get s st) as [a|] eqn:Ea; [|injection E as <- <-; right; auto].
  destruct a as [m|m|A pr| |a b].
  - unfold dfa_shift in *. destruct (d_buffer d) as [|tok rest] eqn:Eb.
    + injection E as <- <-. right. split; auto. intros b Hb. simpl. rewrite (proj2 Hb eq_refl). reflexivity.
    + injection E as <- <-. left. split; auto. exists tok. simpl. split; auto.
  - injection E as <- <-. right. split; auto.
  - inv_bind E. rename a into d1. apply pop_buffer in H as Hb1. destruct (IH _ _ H0) as [(-> & tok & E1 & E2)|(E1 & E2)].
    + left. split; auto. exists tok. split; [congruence|]. intros b. rewrite pop_local, H. simpl. apply E2.
    + right. split; [congruence|]. intros b Hb. rewrite pop_local, H. simpl. apply E2. now rewrite Hb1.
  - unfold dfa_accept in *. injection E as <- <-. right. split; auto. intros b Hb. simpl. destruct b, (d_buffer d); auto;
      exfalso; destruct Hb as [H1 H2]; try (discriminate (H1 eq_refl)); discriminate (H2 eq_refl).
  - injection E as <- <-. right. auto.
Qed.

Lemma stepsto_local (d d' : dfa) o : stepsto d (d', o) ->
  (o = Ok /\ exists tok, d_buffer d = tok :: d_buffer d' /\ forall b, stepsto (setb d (tok :: b)) (setb d' b, Ok)) \/
  (d_buffer d' = d_buffer d /\
    forall b, hd_error (map tk_ty b) = hd_error (map tk_ty (d_buffer d)) -> stepsto (setb d b) (setb d' b, o)).
Proof.
  intros (f & E). destruct (travel_local _ _ _ _ _ E) as [(-> & tok & E1 & E2)|(E1 & E2)].
  - left. split; auto. exists tok. split; auto. intros b. exists f. 
    replace (lookahead (setb d (tok :: b))) with (lookahead d); auto. unfold lookahead. rewrite E1. reflexivity.
  - right. split; auto. intros b Hb. exists f. replace (lookahead (setb d b)) with (lookahead d).
    + apply E2. destruct b, (d_buffer d); simpl in Hb; try discriminate; split; auto; discriminate.
    + unfold lookahead. cbn. destruct b, (d_buffer d); simpl in Hb; try discriminate; auto. injection Hb as Hb. auto.
Qed.

Lemma steps_suffix (d d' : dfa) : steps d d' -> exists x, d_buffer d = x ++ d_buffer d'.
Proof.
  induction 1 as [d|d d1 d2 Ef S H (x & IH)]; [exists []; auto|].
  apply stepsto_local in S as [(_ & tok & E & _)|(E & _)].
  - exists (tok :: x). simpl. congruence.
  - exists x. congruence.
Qed.

Lemma app_tail_eq {A} (x y z : list A) : x ++ z = y ++ z -> x = y.
Proof. apply app_inv_tail. Qed.

(** configurations reached before the token after the shared prefix is consumed *)
Lemma steps_local (d d' : dfa) : steps d d' -> forall x y y', d_buffer d = x ++ d_buffer d' -> d_buffer d' = y ->
  hd_error (map tk_ty y') = hd_error (map tk_ty y) -> steps (setb d (x ++ y')) (setb d' y').
Proof.
  induction 1 as [d|d d1 d2 Ef S H IH]; intros x y y' Ex Ey Hh.
  - assert (x = []) as -> by (apply (app_tail_eq _ _ (d_buffer d)); auto). simpl. constructor.
  - destruct (steps_suffix _ _ H) as (x1 & E1). apply stepsto_local in S as [(_ & tok & E & E2)|(E & E2)].
    + rewrite E1, Ex in E. assert (x = tok :: x1) as -> by (apply (app_tail_eq _ _ (d_buffer d2)); exact E).
      eapply steps_cons; [exact Ef|apply (E2 (x1 ++ y'))|]. eapply IH; eauto.
    + assert (x = x1) as -> by (apply (app_tail_eq _ _ (d_buffer d2)); congruence).
      eapply steps_cons; [exact Ef|apply (E2 (x1 ++ y'))|].
      * rewrite Ex. destruct x1; simpl; auto. now rewrite Ey.
      * eapply IH; eauto.
Qed.

(** ... and, right after a shift, not even its type matters *)
Lemma steps_local_shift (d d0 d' : dfa) : steps d d0 -> d_finished d0 = false -> stepsto d0 (d', Ok) -> d_buffer d0 <> d_buffer d' ->
  forall x y', d_buffer d = x ++ d_buffer d' -> steps (setb d (x ++ y')) (setb d' y').
Proof.
  intros H Ef S Hne x y' Ex. apply stepsto_local in S as [(_ & tok & E & E2)|(E & E2)]; [|congruence].
  destruct (steps_suffix _ _ H) as (x1 & E1). 
  assert (x = x1 ++ [tok]) as ->.
  { apply (app_tail_eq _ _ (d_buffer d')). rewrite <- app_assoc. simpl. congruence. }
  apply steps_trans with (setb d0 (tok :: y')); [|apply steps_one; [exact Ef|apply E2]].
  rewrite <- app_assoc. simpl. eapply (steps_local _ _ H x1 _ (tok :: y') E1 eq_refl). now rewrite E.
Qed.

(** an error found before the rest is touched is found again *)
Lemma runs_local (d d' : dfa) e x y' : runs d (d', Err e) -> d_buffer d = x ++ d_buffer d' ->
  hd_error (map tk_ty y') = hd_error (map tk_ty (d_buffer d')) -> runs (setb d (x ++ y')) (setb d' y', Err e).
Proof.
  intros R Ex Hh. apply runs_steps in R as (d1 & S & R & [[_ E]|(d2 & e' & Ef & S2 & [= <- <-])]); [discriminate|].
  apply stepsto_local in S2 as [(E & _)|(E & E2)]; [discriminate|]. rewrite E in *.
  eapply steps_runs; [eapply steps_local; eauto|]. apply runs_err; auto.
Qed.
End Locality.
