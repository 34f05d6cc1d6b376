(** Monad, loop and list lemmas used throughout. *)
From Coq Require Import List Bool Arith Lia.
From Verif Require Import BTree Model.
Import ListNotations.

Lemma bind_val {A B} (r : res A) (f : A -> res B) b :
  bind r f = Val b -> exists a, r = Val a /\ f a = Val b.
Proof. destruct r; simpl; try discriminate. eauto. Qed.

Lemma bind_fuel {A B} (r : res A) (f : A -> res B) :
  bind r f = Fuel -> r = Fuel \/ exists a, r = Val a /\ f a = Fuel.
Proof. destruct r; simpl; try discriminate; eauto. Qed.

Lemma bind_panic {A B} (r : res A) (f : A -> res B) p :
  bind r f = Panic p -> r = Panic p \/ exists a, r = Val a /\ f a = Panic p.
Proof. destruct r; simpl; try discriminate; eauto. intros [= ->]; auto. Qed.

Lemma expect_val {A} p (o : option A) a : expect p o = Val a <-> o = Some a.
Proof. destruct o; simpl; split; congruence. Qed.

Lemma dassert_val dbg c u : dassert dbg c = Val u -> dbg = true -> c = true.
Proof. unfold dassert. intros E ->. destruct c; simpl in E; congruence. Qed.

Lemma dassert_true dbg : dassert dbg true = Val tt.
Proof. unfold dassert. now rewrite andb_false_r. Qed.

Ltac inv_bind H :=
  let a := fresh "a" in let H1 := fresh "H" in let H2 := fresh "H" in
  apply bind_val in H; destruct H as (a & H1 & H2).

Lemma foldM_app {A B} (f : B -> A -> res B) l1 l2 b :
  foldM f (l1 ++ l2) b = (do b' <- foldM f l1 b; foldM f l2 b').
Proof.
  revert b. induction l1 as [|x l1 IH]; intros b; simpl; auto.
  destruct (f b x); simpl; auto.
Qed.

(** invariant rule for a [for] loop: the invariant sees the part of the list done *)
Lemma foldM_ind {A B} (f : B -> A -> res B) (P : list A -> B -> Prop) l b b' :
  P [] b ->
  (forall done x todo b1 b2, l = done ++ x :: todo -> P done b1 -> f b1 x = Val b2 -> P (done ++ [x]) b2) ->
  foldM f l b = Val b' -> P l b'.
Proof.
  intros H0 Hs. 
  assert (G : forall todo done b1, l = done ++ todo -> P done b1 -> foldM f todo b1 = Val b' -> P l b').
  { induction todo as [|x todo IH]; intros done b1 E HP HF; simpl in HF.
    - injection HF as <-. rewrite app_nil_r in E. now subst.
    - inv_bind HF. apply (IH (done ++ [x]) a); auto.
      + now rewrite <- app_assoc.
      + eapply Hs; eauto. }
  intros HF. apply (G l [] b); auto.
Qed.

Lemma foldM_ind_simple {A B} (f : B -> A -> res B) (P : B -> Prop) l b b' :
  P b ->
  (forall x b1 b2, In x l -> P b1 -> f b1 x = Val b2 -> P b2) ->
  foldM f l b = Val b' -> P b'.
Proof.
  intros H0 Hs HF. apply (foldM_ind f (fun _ => P) l b b'); auto.
  intros done x todo b1 b2 -> HP Hf. eapply Hs; eauto. apply in_app_iff. right. now left.
Qed.

Lemma foldM_total {A B} (f : B -> A -> res B) (P : B -> Prop) l b :
  P b ->
  (forall x b1, In x l -> P b1 -> exists b2, f b1 x = Val b2 /\ P b2) ->
  exists b', foldM f l b = Val b' /\ P b'.
Proof.
  revert b. induction l as [|x l IH]; intros b H0 Hs; simpl; eauto.
  destruct (Hs x b) as (b2 & -> & H2); simpl; auto.
  apply IH; auto. intros; apply Hs; auto. now right.
Qed.

Lemma foldM_Val {A B} (f : B -> A -> B) l b :
  foldM (fun b x => Val (f b x)) l b = Val (fold_left f l b).
Proof. revert b. induction l as [|x l IH]; intros b; simpl; auto. Qed.

Lemma foldM_ext {A B} (f g : B -> A -> res B) l b :
  (forall b x, In x l -> f b x = g b x) -> foldM f l b = foldM g l b.
Proof.
  revert b. induction l as [|x l IH]; intros b E; simpl; auto.
  rewrite E by now left. destruct (g b x); simpl; auto. apply IH. intros; apply E; now right.
Qed.

Lemma mapM_Forall2 {A B} (f : A -> res B) l l' :
  mapM f l = Val l' -> Forall2 (fun x y => f x = Val y) l l'.
Proof.
  revert l'. induction l as [|x l IH]; intros l' E; simpl in E.
  - injection E as <-. constructor.
  - inv_bind E. inv_bind H0. injection H2 as <-. constructor; auto.
Qed.

Lemma mapM_total {A B} (f : A -> res B) l :
  (forall x, In x l -> exists y, f x = Val y) -> exists l', mapM f l = Val l'.
Proof.
  induction l as [|x l IH]; intros Hf; simpl; eauto.
  destruct (Hf x) as (y & ->); [now left|]. destruct IH as (l' & ->); simpl; eauto.
  intros; apply Hf; now right.
Qed.

Lemma mapM_nth {A B} (f : A -> res B) l l' i x :
  mapM f l = Val l' -> nth_error l i = Some x -> exists y, nth_error l' i = Some y /\ f x = Val y.
Proof.
  intros E. apply mapM_Forall2 in E. revert i. induction E; intros [|i]; simpl; try discriminate.
  - intros [= <-]. eauto.
  - auto.
Qed.

Lemma mapM_nth' {A B} (f : A -> res B) l l' i y :
  mapM f l = Val l' -> nth_error l' i = Some y -> exists x, nth_error l i = Some x /\ f x = Val y.
Proof.
  intros E. apply mapM_Forall2 in E. revert i. induction E; intros [|i]; simpl; try discriminate.
  - intros [= <-]. eauto.
  - auto.
Qed.

Lemma mapM_length {A B} (f : A -> res B) l l' : mapM f l = Val l' -> length l' = length l.
Proof. intros E. apply mapM_Forall2 in E. induction E; simpl; auto. Qed.

Lemma filter_map_in {A B} (f : A -> option B) l y :
  In y (filter_map f l) <-> exists x, In x l /\ f x = Some y.
Proof.
  induction l as [|x l IH]; simpl; [firstorder|].
  destruct (f x) as [b|] eqn:E; simpl; rewrite IH; split.
  - intros [<-|(z & H1 & H2)]; eauto.
  - intros (z & [<-|H1] & H2); [left; congruence | right; eauto].
  - intros (z & H1 & H2); eauto.
  - intros (z & [<-|H1] & H2); [congruence | eauto].
Qed.

Lemma enum_from_nth {A} (l : list A) i k :
  nth_error (enum_from i l) k = match nth_error l k with Some x => Some (x, i + k) | None => None end.
Proof.
  revert i k. induction l as [|x l IH]; intros i [|k]; simpl; auto.
  - now rewrite Nat.add_0_r.
  - rewrite IH. now rewrite Nat.add_succ_r.
Qed.

Lemma enum_from_length {A} (l : list A) i : length (enum_from i l) = length l.
Proof. revert i. induction l; intros i; simpl; auto. Qed.

Lemma enum_from_app {A} (l m : list A) i :
  enum_from i (l ++ m) = enum_from i l ++ enum_from (i + length l) m.
Proof.
  revert i. induction l as [|x l IH]; intros i; simpl.
  - now rewrite Nat.add_0_r.
  - rewrite IH. do 3 f_equal. lia.
Qed.

Lemma set_nth_length {A} i (x : A) l : length (set_nth i x l) = length l.
Proof. revert i. induction l as [|y l IH]; intros [|i]; simpl; auto. Qed.

Lemma set_nth_nth {A} i (x : A) l j :
  nth_error (set_nth i x l) j =
  if Nat.eqb i j then match nth_error l j with Some _ => Some x | None => None end else nth_error l j.
Proof.
  revert i j. induction l as [|y l IH]; intros [|i] [|j]; simpl; auto.
  now destruct (i =? j).
Qed.

(** ** transitive *)
Section Transitive.
  Context {A : Type} {OA : Ord A}.

  Lemma transitive_mono fuel (seed : A) f v :
    transitive fuel seed f = Val v -> forall fuel', fuel <= fuel' -> transitive fuel' seed f = Val v.
  Proof.
    revert seed. induction fuel as [|n IH]; intros seed E [|m] L; simpl in *; try discriminate; try lia.
    destruct (f seed) eqn:Ef; simpl in *; try discriminate.
    destruct (eqb a seed); auto. apply IH; auto. lia.
  Qed.

  Lemma transitive_fun fuel fuel' (seed : A) f v v' :
    transitive fuel seed f = Val v -> transitive fuel' seed f = Val v' -> v = v'.
  Proof.
    intros E E'.
    pose proof (transitive_mono _ _ _ _ E (max fuel fuel') (Nat.le_max_l _ _)).
    pose proof (transitive_mono _ _ _ _ E' (max fuel fuel') (Nat.le_max_r _ _)). congruence.
  Qed.

  (** induction principle: an invariant of the iterates holds of the result, which is a fixpoint *)
  Lemma transitive_ind (P : A -> Prop) fuel seed f v :
    P seed -> (forall a b, P a -> f a = Val b -> P b) ->
    transitive fuel seed f = Val v -> P v /\ f v = Val v.
  Proof.
    revert seed. induction fuel as [|n IH]; intros seed H0 Hs E; simpl in E; [discriminate|].
    inv_bind E. destruct (eqb_spec a seed) as [->|N].
    - injection H1 as ->. auto.
    - apply IH in H1; eauto.
  Qed.
End Transitive.

(** ** misc lists *)
Lemma nth_error_skipn {A} (l : list A) k i : nth_error (skipn k l) i = nth_error l (k + i).
Proof. revert l. induction k as [|k IH]; intros [|x l]; simpl; auto. now destruct i. Qed.

Lemma skipn_nth_cons {A} (l : list A) k x :
  nth_error l k = Some x -> skipn k l = x :: skipn (S k) l.
Proof. revert l. induction k as [|k IH]; intros [|y l]; simpl; try discriminate; try congruence. apply IH. Qed.

Lemma NoDup_incl_bound {A} (l u : list A) : NoDup l -> incl l u -> length l <= length u.
Proof. intros. now apply NoDup_incl_length. Qed.

Lemma last_cons_app {A} (l : list A) x d : last (l ++ [x]) d = x.
Proof. induction l as [|y l IH]; simpl; auto. destruct (l ++ [x]) eqn:E; auto. now destruct l. Qed.

Lemma in_nth_error {A} (l : list A) x : In x l <-> exists i, nth_error l i = Some x.
Proof.
  split; [apply In_nth_error|]. intros (i & E). eapply nth_error_In; eauto.
Qed.

Lemma fold_left_ind {A B} (f : B -> A -> B) (P : list A -> B -> Prop) l b :
  P [] b ->
  (forall done x todo b1, l = done ++ x :: todo -> P done b1 -> P (done ++ [x]) (f b1 x)) ->
  P l (fold_left f l b).
Proof.
  intros H0 Hs. apply (foldM_ind (fun b x => Val (f b x)) P l b); auto.
  - intros done x todo b1 b2 E HP [= <-]. eapply Hs; eauto.
  - apply foldM_Val.
Qed.

Lemma firstn_S_nth {A} (l : list A) k x : nth_error l k = Some x -> firstn (S k) l = firstn k l ++ [x].
Proof. revert k. induction l as [|y l IH]; intros [|k]; try discriminate; [now intros [= ->]|]. intros E. simpl. f_equal. now apply IH. Qed.
