(** Ordered collections: the model of [std::collections::BTreeSet] and
    [BTreeMap] (re-exported as [Set] and [Map] in /repo/src/lib.rs:21-22).

    A [BTreeSet<A>] is modelled by the list of its elements in iteration
    (= ascending [Ord]) order, a [BTreeMap<K,V>] by the list of its entries in
    iteration (= ascending key) order.  All operations below keep these lists
    strictly sorted (lemmas [*_sorted]); equality of the collections is
    equality of the lists, as Rust's [PartialEq] on them is elementwise. *)
From Coq Require Import List Bool Arith Lia.
Import ListNotations.

(** A lawful Rust [Ord] (with [PartialEq] agreeing with it). *)
Class Ord (A : Type) := {
  cmp : A -> A -> comparison;
  cmp_eq : forall a b, cmp a b = Eq <-> a = b;
  cmp_opp : forall a b, cmp b a = CompOpp (cmp a b);
  cmp_trans : forall a b c, cmp a b = Lt -> cmp b c = Lt -> cmp a c = Lt
}.

Section Basics.
  Context {A : Type} `{Ord A}.

  Definition eqb (a b : A) : bool := match cmp a b with Eq => true | _ => false end.

  Lemma eqb_spec a b : reflect (a = b) (eqb a b).
  Proof.
    unfold eqb. destruct (cmp a b) eqn:E; constructor.
    - now apply cmp_eq.
    - intros ->. assert (cmp b b = Eq) by now apply cmp_eq. congruence.
    - intros ->. assert (cmp b b = Eq) by now apply cmp_eq. congruence.
  Qed.

  Lemma eqb_eq a b : eqb a b = true <-> a = b.
  Proof. destruct (eqb_spec a b); split; congruence. Qed.

  Lemma eqb_neq a b : eqb a b = false <-> a <> b.
  Proof. destruct (eqb_spec a b); split; congruence. Qed.

  Lemma eqb_refl a : eqb a a = true.
  Proof. now apply eqb_eq. Qed.

  Lemma cmp_refl a : cmp a a = Eq.
  Proof. now apply cmp_eq. Qed.

  Lemma cmp_gt_lt a b : cmp a b = Gt <-> cmp b a = Lt.
  Proof. rewrite (cmp_opp a b). destruct (cmp a b); simpl; split; congruence. Qed.

  Definition ord_dec (a b : A) : {a = b} + {a <> b}.
  Proof. destruct (eqb_spec a b); [left|right]; assumption. Defined.
End Basics.

(** Instances: the derived ([#[derive(Ord)]]) orders. *)
#[global] Instance Ord_nat : Ord nat.
Proof.
  refine {| cmp := Nat.compare |}.
  - apply Nat.compare_eq_iff.
  - intros a b. apply Nat.compare_antisym.
  - intros a b c H1 H2. apply Nat.compare_lt_iff in H1. apply Nat.compare_lt_iff in H2.
    apply Nat.compare_lt_iff. lia.
Defined.

Definition lexc (c d : comparison) : comparison := match c with Eq => d | _ => c end.

Definition cmp_pair {A B} `{Ord A} `{Ord B} (x y : A * B) : comparison :=
  lexc (cmp (fst x) (fst y)) (cmp (snd x) (snd y)).

#[global] Instance Ord_pair {A B} `{Ord A} `{Ord B} : Ord (A * B).
Proof.
  refine {| cmp := cmp_pair |}; unfold cmp_pair.
  - intros [a b] [c d]; simpl. destruct (cmp a c) eqn:E; simpl.
    + apply cmp_eq in E. subst. rewrite cmp_eq. split; congruence.
    + split; [congruence|]. intros [= -> ->]. now rewrite cmp_refl in E.
    + split; [congruence|]. intros [= -> ->]. now rewrite cmp_refl in E.
  - intros [a b] [c d]; simpl. rewrite (cmp_opp a c), (cmp_opp b d).
    destruct (cmp a c); reflexivity.
  - intros [a b] [c d] [e f]; simpl.
    destruct (cmp a c) eqn:E1; simpl; try congruence;
    destruct (cmp c e) eqn:E2; simpl; try congruence.
    + apply cmp_eq in E1, E2. subst. rewrite cmp_refl. simpl. apply cmp_trans.
    + apply cmp_eq in E1. subst. rewrite E2. reflexivity.
    + apply cmp_eq in E2. subst. rewrite E1. reflexivity.
    + rewrite (cmp_trans _ _ _ E1 E2). reflexivity.
Defined.

Fixpoint cmp_list {A} `{Ord A} (l m : list A) : comparison :=
  match l, m with
  | [], [] => Eq
  | [], _ :: _ => Lt
  | _ :: _, [] => Gt
  | a :: l', b :: m' => lexc (cmp a b) (cmp_list l' m')
  end.

#[global] Instance Ord_list {A} `{Ord A} : Ord (list A).
Proof.
  refine {| cmp := cmp_list |}.
  - intros a. induction a as [|x a IH]; destruct b as [|y b]; simpl; try (split; congruence).
    destruct (cmp x y) eqn:E; simpl.
    + apply cmp_eq in E. subst. rewrite IH. split; congruence.
    + split; [congruence|]. intros [= -> ->]. now rewrite cmp_refl in E.
    + split; [congruence|]. intros [= -> ->]. now rewrite cmp_refl in E.
  - intros a. induction a as [|x a IH]; destruct b as [|y b]; simpl; try reflexivity.
    rewrite (cmp_opp x y), IH. destruct (cmp x y); reflexivity.
  - intros a. induction a as [|x a IH]; destruct b as [|y b]; destruct c as [|z c]; simpl; try congruence.
    destruct (cmp x y) eqn:E1; simpl; try congruence;
    destruct (cmp y z) eqn:E2; simpl; try congruence.
    + apply cmp_eq in E1, E2. subst. rewrite cmp_refl. simpl. apply IH.
    + apply cmp_eq in E1. subst. rewrite E2. reflexivity.
    + apply cmp_eq in E2. subst. rewrite E1. reflexivity.
    + rewrite (cmp_trans _ _ _ E1 E2). reflexivity.
Defined.

(** Transport along an injection: used for records, compared field by field. *)
Definition Ord_inj {A B} `{Ord B} (f : A -> B) (inj : forall a b, f a = f b -> a = b) : Ord A.
Proof.
  refine {| cmp := fun a b => cmp (f a) (f b) |}.
  - intros a b. rewrite cmp_eq. split; [apply inj | congruence].
  - intros a b. apply cmp_opp.
  - intros a b c. apply cmp_trans.
Defined.

(** ** Sets *)
Definition bset (A : Type) := list A.

Section Sets.
  Context {A : Type} `{Ord A}.

  (** [BTreeSet::insert] *)
  Fixpoint bs_insert (x : A) (s : bset A) : bset A :=
    match s with
    | [] => [x]
    | y :: s' =>
        match cmp x y with
        | Lt => x :: s
        | Eq => s
        | Gt => y :: bs_insert x s'
        end
    end.

  (** [BTreeSet::contains] *)
  Definition bs_mem (x : A) (s : bset A) : bool := existsb (eqb x) s.

  (** [BTreeSet::extend] *)
  Definition bs_extend (s : bset A) (l : list A) : bset A :=
    fold_left (fun acc x => bs_insert x acc) l s.

  (** [FromIterator for BTreeSet] ([collect]) and [BTreeSet::from] *)
  Definition bs_of_list (l : list A) : bset A := bs_extend [] l.

  (** [BTreeSet::remove] *)
  Definition bs_remove (x : A) (s : bset A) : bset A := filter (fun y => negb (eqb x y)) s.

  (** strictly ascending *)
  Fixpoint sorted (s : list A) : Prop :=
    match s with
    | [] => True
    | x :: s' => (forall y, In y s' -> cmp x y = Lt) /\ sorted s'
    end.

  Lemma bs_mem_spec x s : bs_mem x s = true <-> In x s.
  Proof.
    unfold bs_mem. rewrite existsb_exists. split.
    - intros (y & Hy & E). apply eqb_eq in E. now subst.
    - intros Hx. exists x. split; [assumption|]. apply eqb_refl.
  Qed.

  Lemma bs_insert_in z x s : In z (bs_insert x s) <-> z = x \/ In z s.
  Proof.
    induction s as [|y s IH]; simpl; [firstorder congruence|].
    destruct (cmp x y) eqn:E; simpl.
    - apply cmp_eq in E. subst. firstorder congruence.
    - firstorder congruence.
    - rewrite IH. firstorder congruence.
  Qed.

  Lemma bs_extend_in z s l : In z (bs_extend s l) <-> In z s \/ In z l.
  Proof.
    revert s. induction l as [|x l IH]; intros s; simpl; [firstorder|].
    unfold bs_extend in *. simpl. rewrite IH, bs_insert_in. firstorder congruence.
  Qed.

  Lemma bs_of_list_in z l : In z (bs_of_list l) <-> In z l.
  Proof. unfold bs_of_list. rewrite bs_extend_in. firstorder. Qed.

  Lemma bs_remove_in z x s : In z (bs_remove x s) <-> In z s /\ z <> x.
  Proof.
    unfold bs_remove. rewrite filter_In, negb_true_iff, eqb_neq. firstorder congruence.
  Qed.

  Lemma bs_insert_sorted x s : sorted s -> sorted (bs_insert x s).
  Proof.
    induction s as [|y s IH]; simpl; [tauto|]. intros [Hy Hs].
    destruct (cmp x y) eqn:E; simpl.
    - tauto.
    - repeat split; auto. intros z [<-|Hz]; auto. eapply cmp_trans; eauto.
    - split; [|auto]. intros z Hz. apply bs_insert_in in Hz as [->|Hz]; auto.
      now apply cmp_gt_lt.
  Qed.

  Lemma bs_extend_sorted s l : sorted s -> sorted (bs_extend s l).
  Proof.
    revert s. induction l as [|x l IH]; intros s Hs; simpl; [exact Hs|].
    apply IH. now apply bs_insert_sorted.
  Qed.

  Lemma bs_of_list_sorted l : sorted (bs_of_list l).
  Proof. apply bs_extend_sorted. exact I. Qed.

  Lemma filter_sorted f s : sorted s -> sorted (filter f s).
  Proof.
    induction s as [|y s IH]; simpl; [tauto|]. intros [Hy Hs].
    destruct (f y); simpl; auto. split; auto. intros z Hz. apply filter_In in Hz. apply Hy, Hz.
  Qed.

  Lemma bs_remove_sorted x s : sorted s -> sorted (bs_remove x s).
  Proof. apply filter_sorted. Qed.

  Lemma sorted_NoDup s : sorted s -> NoDup s.
  Proof.
    induction s as [|x s IH]; simpl; constructor.
    - intros Hx. apply H0 in Hx. now rewrite cmp_refl in Hx.
    - apply IH, H0.
  Qed.

  (** two strictly sorted lists with the same members are the same list *)
  Lemma sorted_ext s t : sorted s -> sorted t -> (forall z, In z s <-> In z t) -> s = t.
  Proof.
    revert t. induction s as [|x s IH]; intros [|y t] Hs Ht Hst; auto.
    - exfalso. apply (Hst y). now left.
    - exfalso. apply (Hst x). now left.
    - destruct Hs as [Hx Hs], Ht as [Hy Ht].
      assert (x = y) as ->.
      { destruct (proj1 (Hst x) (or_introl eq_refl)) as [E|Hxt]; auto.
        destruct (proj2 (Hst y) (or_introl eq_refl)) as [E|Hys]; auto.
        pose proof (Hx _ Hys) as H1. pose proof (Hy _ Hxt) as H2.
        pose proof (cmp_trans _ _ _ H1 H2) as H3. now rewrite cmp_refl in H3. }
      f_equal. apply IH; auto. intros z. split; intros Hz.
      + destruct (proj1 (Hst z) (or_intror Hz)) as [E|]; auto.
        subst. apply Hx in Hz. now rewrite cmp_refl in Hz.
      + destruct (proj2 (Hst z) (or_intror Hz)) as [E|]; auto.
        subst. apply Hy in Hz. now rewrite cmp_refl in Hz.
  Qed.

  Lemma bs_of_list_id s : sorted s -> bs_of_list s = s.
  Proof.
    intros Hs. apply sorted_ext; auto using bs_of_list_sorted. intros; apply bs_of_list_in.
  Qed.
End Sets.

(** ** Maps *)
Definition bmap (K V : Type) := list (K * V).

Section Maps.
  Context {K V : Type} `{Ord K}.

  (** [BTreeMap::get] *)
  Fixpoint bm_get (k : K) (m : bmap K V) : option V :=
    match m with
    | [] => None
    | (k', v) :: m' => if eqb k k' then Some v else bm_get k m'
    end.

  (** [BTreeMap::insert] (the returned old value is [bm_get] before) *)
  Fixpoint bm_insert (k : K) (v : V) (m : bmap K V) : bmap K V :=
    match m with
    | [] => [(k, v)]
    | (k', v') :: m' =>
        match cmp k k' with
        | Lt => (k, v) :: m
        | Eq => (k, v) :: m'
        | Gt => (k', v') :: bm_insert k v m'
        end
    end.

  (** [BTreeMap::remove] *)
  Definition bm_remove (k : K) (m : bmap K V) : bmap K V :=
    filter (fun e => negb (eqb k (fst e))) m.

  (** [BTreeMap::contains_key] *)
  Definition bm_mem (k : K) (m : bmap K V) : bool :=
    match bm_get k m with Some _ => true | None => false end.

  (** [BTreeMap::keys] and [BTreeMap::values] *)
  Definition bm_keys (m : bmap K V) : list K := map fst m.
  Definition bm_values (m : bmap K V) : list V := map snd m.

  (** [FromIterator for BTreeMap] *)
  Definition bm_of_list (l : list (K * V)) : bmap K V :=
    fold_left (fun m e => bm_insert (fst e) (snd e) m) l [].

  Lemma bm_get_insert_eq k v m : bm_get k (bm_insert k v m) = Some v.
  Proof.
    induction m as [|[k' v'] m IH]; simpl; [now rewrite eqb_refl|].
    destruct (cmp k k') eqn:E; simpl; try now rewrite eqb_refl.
    unfold eqb. now rewrite E.
  Qed.

  Lemma bm_get_insert_neq k k0 v m : k0 <> k -> bm_get k0 (bm_insert k v m) = bm_get k0 m.
  Proof.
    intros N. induction m as [|[k' v'] m IH]; simpl.
    - apply eqb_neq in N. now rewrite N.
    - destruct (cmp k k') eqn:E; simpl.
      + apply cmp_eq in E. subst. apply eqb_neq in N. now rewrite N.
      + apply eqb_neq in N. now rewrite N.
      + now rewrite IH.
  Qed.

  Lemma bm_get_insert k k0 v m :
    bm_get k0 (bm_insert k v m) = if eqb k0 k then Some v else bm_get k0 m.
  Proof.
    destruct (eqb_spec k0 k) as [->|N]; [apply bm_get_insert_eq | now apply bm_get_insert_neq].
  Qed.

  Lemma bm_get_remove k k0 m :
    bm_get k0 (bm_remove k m) = if eqb k0 k then None else bm_get k0 m.
  Proof.
    induction m as [|[k' v'] m IH]; simpl; [now destruct (eqb k0 k)|].
    destruct (eqb_spec k k') as [->|N]; simpl.
    - rewrite IH. destruct (eqb_spec k0 k'); reflexivity.
    - rewrite IH. destruct (eqb_spec k0 k) as [->|N2]; auto.
      apply eqb_neq in N. now rewrite N.
  Qed.

  Lemma bm_get_in k v m : bm_get k m = Some v -> In (k, v) m.
  Proof.
    induction m as [|[k' v'] m IH]; simpl; [congruence|].
    destruct (eqb_spec k k') as [->|N]; [intros [= ->]; now left | auto].
  Qed.

  Definition msorted (m : bmap K V) : Prop := sorted (map fst m).

  Lemma bm_in_get k v m : msorted m -> In (k, v) m -> bm_get k m = Some v.
  Proof.
    unfold msorted. induction m as [|[k' v'] m IH]; simpl; [tauto|].
    intros [Hk Hm] [[= -> ->]|Hin]; [now rewrite eqb_refl|].
    destruct (eqb_spec k k') as [->|N]; auto.
    apply (in_map fst) in Hin. apply Hk in Hin. simpl in Hin. now rewrite cmp_refl in Hin.
  Qed.

  Lemma bm_mem_keys k m : bm_mem k m = true <-> In k (bm_keys m).
  Proof.
    unfold bm_mem, bm_keys. induction m as [|[k' v'] m IH]; simpl; [split; [congruence|tauto]|].
    destruct (eqb_spec k k') as [->|N]; [tauto|]. rewrite IH. firstorder congruence.
  Qed.

  Lemma bm_get_keys k m : (exists v, bm_get k m = Some v) <-> In k (bm_keys m).
  Proof.
    rewrite <- bm_mem_keys. unfold bm_mem. destruct (bm_get k m); split; eauto; try congruence.
    intros [v E]; congruence.
  Qed.

  Lemma bm_get_none k m : bm_get k m = None <-> ~ In k (bm_keys m).
  Proof.
    rewrite <- bm_get_keys. destruct (bm_get k m) as [v|]; split; try congruence.
    - intros N. destruct N. eauto.
    - intros _ [v E]. congruence.
  Qed.

  Lemma bm_keys_insert k v m : bm_keys (bm_insert k v m) = bs_insert k (bm_keys m).
  Proof.
    unfold bm_keys. induction m as [|[k' v'] m IH]; simpl; auto.
    destruct (cmp k k') eqn:E; simpl; auto.
    - apply cmp_eq in E. now subst.
    - now rewrite IH.
  Qed.

  Lemma bm_insert_sorted k v m : msorted m -> msorted (bm_insert k v m).
  Proof.
    unfold msorted. intros Hm. fold (bm_keys (bm_insert k v m)). rewrite bm_keys_insert.
    now apply bs_insert_sorted.
  Qed.

  Lemma bm_insert_in k v m k' v' :
    In (k', v') (bm_insert k v m) -> (k' = k /\ v' = v) \/ In (k', v') m.
  Proof.
    induction m as [|[k0 v0] m IH]; simpl.
    - intros [[= <- <-]|[]]. now left.
    - destruct (cmp k k0) eqn:E; simpl.
      + intros [[= <- <-]|Hin]; auto.
      + intros [[= <- <-]|Hin]; auto.
      + intros [Heq|Hin]; auto. destruct (IH Hin); auto.
  Qed.

  Lemma bm_of_list_get k v l :
    bm_get k (bm_of_list l) = Some v -> In (k, v) l.
  Proof.
    unfold bm_of_list.
    assert (G : forall m, bm_get k (fold_left (fun m e => bm_insert (fst e) (snd e) m) l m) = Some v ->
                In (k, v) l \/ bm_get k m = Some v).
    { induction l as [|[k' v'] l IH]; simpl; intros m Hm; auto.
      apply IH in Hm as [Hm|Hm]; auto. rewrite bm_get_insert in Hm.
      destruct (eqb_spec k k') as [->|N]; auto. injection Hm as ->. auto. }
    intros Hk. apply G in Hk as [|Hk]; auto. discriminate.
  Qed.

  Lemma bm_of_list_mem k l :
    In k (bm_keys (bm_of_list l)) <-> In k (map fst l).
  Proof.
    unfold bm_of_list.
    assert (G : forall m, In k (bm_keys (fold_left (fun m e => bm_insert (fst e) (snd e) m) l m)) <->
                In k (bm_keys m) \/ In k (map fst l)).
    { induction l as [|[k' v'] l IH]; simpl; intros m; [tauto|].
      rewrite IH, bm_keys_insert, bs_insert_in. firstorder congruence. }
    rewrite G. simpl. tauto.
  Qed.

  Lemma bm_of_list_sorted l : msorted (bm_of_list l).
  Proof.
    unfold bm_of_list.
    assert (G : forall m, msorted m -> msorted (fold_left (fun m e => bm_insert (fst e) (snd e) m) l m)).
    { induction l as [|[k' v'] l IH]; simpl; intros m Hm; auto. apply IH. now apply bm_insert_sorted. }
    apply G. exact I.
  Qed.
End Maps.

Arguments bs_insert : simpl never.
Arguments bm_insert : simpl never.
