(** What the printed tokens table shows, /repo/src/main.rs:64-79, in general (C61). *)
From Coq Require Import List Bool Arith Lia String.
From Verif Require Import BTree Model Base Show Strings Spec SpecP GrammarP FirstFollow Interface Wrap Final Check ShowP Examples Refute Refute2.
Import ListNotations.

Section Spec.
Context {T : Type} {OT : Ord T}.
(** [A] is the start symbol or stands in some production, other than at the end of one of its own *)
Definition followed (rules : rulemap T) (start A : T) : Prop :=
  A = start \/ exists B i u v, prod_at rules B i (u ++ A :: v) /\ nonterm rules A /\ (v = [] -> A <> B).
End Spec.

Section Lists.
Context {T : Type} {OT : Ord T}.

Lemma sorted_app (l m : list T) : sorted (l ++ m) <-> sorted l /\ sorted m /\ forall x y, In x l -> In y m -> cmp x y = Lt.
Proof.
  induction l as [|a l IH]; simpl; [firstorder|]. rewrite IH. split.
  - intros (H1 & H2 & H3 & H4). split; [split; auto; intros y Hy; apply H1, in_or_app; auto|]. split; auto.
    intros x y [<-|Hx] Hy; [apply H1, in_or_app; auto|auto].
  - intros ((H1 & H2) & H3 & H4). split; [|auto]. intros y Hy. apply in_app_or in Hy as [Hy|Hy]; auto.
Qed.

(** the small ones come first *)
Lemma sorted_front (l m : list T) : sorted l -> sorted m -> (forall x, In x m -> In x l) -> (forall x y, In x l -> ~ In x m -> In y m -> cmp y x = Lt) ->
  exists r, l = m ++ r.
Proof.
  intros Sl Sm Hi Hc. exists (filter (fun x => negb (existsb (eqb x) m)) l).
  assert (F : forall x, In x (filter (fun x => negb (existsb (eqb x) m)) l) <-> In x l /\ ~ In x m).
  { intros x. rewrite filter_In, negb_true_iff. split; intros [H1 H2]; split; auto.
    - intros H. enough (existsb (eqb x) m = true) by congruence. apply existsb_exists. exists x. split; auto. apply eqb_refl.
    - destruct (existsb (eqb x) m) eqn:E; auto. apply existsb_exists in E as (y & Hy & E). apply eqb_eq in E. subst. contradiction. }
  apply sorted_ext; auto.
  - apply sorted_app. split; auto. split.
    + clear -Sl. revert Sl. generalize (fun x => negb (existsb (eqb x) m)) as f. intros f. induction l as [|a l IH]; simpl; auto. intros [H1 H2]. destruct (f a); simpl; auto. split; auto.
      intros y Hy. apply filter_In in Hy as [Hy _]. auto.
    + intros x y Hx Hy. apply F in Hy as [H1 H2]. auto.
  - intros x. rewrite in_app_iff, F. split; [|intros [H|[H _]]; auto]. intros H. destruct (in_dec ord_dec x m); auto.
Qed.

Lemma combine_front {A B} (l r : list A) (m : list B) : List.length l = List.length m -> combine (l ++ r) m = combine l m.
Proof. revert m. induction l as [|a l IH]; intros [|b m] E; simpl in *; try discriminate; [destruct r; auto|]. f_equal. apply IH. now injection E. Qed.

Lemma nth_combine {A B} (l : list A) (m : list B) n a b : nth_error (combine l m) n = Some (a, b) <-> nth_error l n = Some a /\ nth_error m n = Some b.
Proof.
  revert m n. induction l as [|x l IH]; intros [|y m] [|n]; simpl; try (split; [discriminate|intros [? ?]; discriminate]); auto.
  split; [intros [= -> ->]; auto|intros [[= ->] [= ->]]; auto].
Qed.

Lemma bm_get_nth {V} (l : bmap T V) n A v : sorted (map fst l) -> nth_error l n = Some (A, v) <-> nth_error (map fst l) n = Some A /\ bm_get A l = Some v.
Proof.
  intros S. revert n. induction l as [|[k x] l IH]; intros n; [destruct n; simpl; (split; [discriminate|intros [? ?]; discriminate])|].
  simpl in S. destruct S as [S1 S2]. destruct n as [|n]; simpl.
  - split; [intros [= -> ->]; now rewrite eqb_refl|]. intros [[= ->] E]. rewrite eqb_refl in E. congruence.
  - rewrite (IH S2). split; intros [E1 E2]; split; auto; (destruct (eqb_spec A k) as [->|N]; [|auto]); apply nth_error_In, S1 in E1; now rewrite cmp_refl in E1.
Qed.

Lemma nth_sorted (l : list T) i j x y : sorted l -> nth_error l i = Some x -> nth_error l j = Some y -> i < j -> cmp x y = Lt.
Proof.
  revert i j. induction l as [|a l IH]; intros i j S E1 E2 L; [now destruct i|]. destruct S as [S1 S2]. destruct j as [|j]; [lia|]. simpl in E2. destruct i as [|i]; simpl in E1.
  - injection E1 as <-. apply S1. eapply nth_error_In; eauto.
  - eapply IH; eauto. lia.
Qed.
End Lists.

Section TokensTab.
Context {T : Type} {OT : Ord T}.
Variables (dbg : bool) (start eof : T) (rules : rulemap T) (g : grammar T).
Hypothesis W : wf_rules rules.
Hypothesis Hg : grammar_new dbg start rules eof = Val g.
Variables (k : method) (t : tabler T).
Hypothesis Hm : makes k dbg g t.

Lemma tables_keys : bm_keys (t_first t) = bm_keys rules /\ sorted (bm_keys (t_follow t)) /\ (forall A, In A (bm_keys (t_follow t)) <-> followed rules start A) /\
  (forall A, followed rules start A -> nonterm rules A) /\ forall A, In A (bm_keys rules) <-> nonterm rules A.
Proof.
  destruct (makes_first _ _ _ _ _ W Hg _ _ Hm) as (t0 & Ht & E1 & E2 & _). pose proof (tmakes_facts _ _ _ _ _ W Hg _ Ht) as F. rewrite E1, E2.
  assert (N : forall A, In A (bm_keys rules) <-> nonterm rules A) by (intros A; symmetry; apply bm_get_keys).
  assert (Fo : forall A, followed rules start A <-> bm_mem A (t_follow t0) = true).
  { intros A. rewrite (tf_follow_keys _ _ _ _ _ _ F). split; (intros [->|H]; [now left|right]).
    - destruct H as (B & i & u & v & Hp & HA & Hv). exists B, i, (u ++ A :: v). split; auto. split; auto. destruct v as [|Y v]; [right; exists u; auto|left; exists u, Y, v; auto].
    - destruct H as (B & i & rhs & Hp & HA & [(u & Y & v & ->)|(u & -> & HB)]); [exists B, i, u, (Y :: v)|exists B, i, u, []]; auto.
      split; auto. split; auto. discriminate. }
  split; [|split; [exact (tf_follow_sorted _ _ _ _ _ _ F)|split; [|split; auto]]].
  - apply sorted_ext; [exact (tf_first_sorted _ _ _ _ _ _ F)|exact (proj1 W)|]. intros A. rewrite N, <- bm_get_keys. apply (tf_first_keys _ _ _ _ _ _ F).
  - intros A. rewrite Fo. unfold bm_keys. now rewrite bm_mem_keys.
  - intros A [->|(B & i & u & v & _ & H & _)]; auto. destruct (Wp0 _ _ _ _ _ W Hg) as (p0 & _ & Hp & _). eapply prod_nonterm; eauto.
Qed.

Lemma tokens_nth n A f w : nth_error (tokens_table t) n = Some (A, f, w) <->
  nth_error (bm_keys rules) n = Some A /\ bm_get A (t_first t) = Some f /\ exists B, nth_error (bm_keys (t_follow t)) n = Some B /\ bm_get B (t_follow t) = Some w.
Proof.
  destruct tables_keys as (K1 & S2 & _). assert (sorted (bm_keys (t_first t))) as S1 by (rewrite K1; exact (proj1 W)).
  unfold tokens_table. transitivity (nth_error (combine (t_first t) (bm_values (t_follow t))) n = Some ((A, f), w)).
  - rewrite nth_error_map. destruct (nth_error _ n) as [[[A' f'] w']|]; simpl; split; intros [= -> -> ->]; auto.
  - rewrite nth_combine, (bm_get_nth _ _ _ _ S1). rewrite <- K1. unfold bm_values.
    assert (nth_error (map snd (t_follow t)) n = Some w <-> exists B, nth_error (bm_keys (t_follow t)) n = Some B /\ bm_get B (t_follow t) = Some w) as H; [|unfold bm_keys in *; split; [intros [[X1 X2] X3%H]; auto|intros (X1 & X2 & X3%H); auto]].
    rewrite nth_error_map. split.
    + intros E. destruct (nth_error (t_follow t) n) as [[B w']|] eqn:E2; [|discriminate]. injection E as ->. apply (bm_get_nth _ _ _ _ S2) in E2. eauto.
    + intros (B & E). apply (bm_get_nth _ _ _ _ S2) in E. now rewrite E.
Qed.

Lemma tokens_right : (forall A f w, In (A, f, w) (tokens_table t) <-> bm_get A (t_first t) = Some f /\ bm_get A (t_follow t) = Some w) <->
  forall A B, nonterm rules A -> ~ followed rules start A -> followed rules start B -> cmp B A = Lt.
Proof.
  destruct tables_keys as (K1 & S2 & K2 & K3 & K4). assert (sorted (bm_keys rules)) as S1 by exact (proj1 W). split.
  - intros HR A B HA NA HB. apply K4 in HA as IA. apply In_nth_error in IA as (a & Ea). pose proof (K3 _ HB) as NB. apply K4 in NB. apply K2 in HB.
    rewrite <- K1 in NB. apply bm_get_keys in NB as (f & Ef). apply bm_get_keys in HB as (w & Ew).
    pose proof (proj2 (HR B f w) (conj Ef Ew)) as HI. apply In_nth_error in HI as (b & Eb). apply tokens_nth in Eb as (E1 & _ & C & E2 & _).
    apply (nth_sorted _ b a _ _ S1); auto. destruct (le_lt_dec a b) as [L|L]; auto. exfalso.
    assert (a < List.length (bm_keys (t_follow t))) as La. { assert (b < List.length (bm_keys (t_follow t))) by (apply nth_error_Some; congruence). lia. }
    destruct (nth_error (bm_keys (t_follow t)) a) as [D|] eqn:ED; [|apply nth_error_None in ED; lia].
    assert (exists f', bm_get A (t_first t) = Some f') as (f' & Ef') by (apply bm_get_keys; rewrite K1; now apply K4).
    assert (exists w', bm_get D (t_follow t) = Some w') as (w' & Ew') by (apply bm_get_keys; eapply nth_error_In; eauto).
    assert (In (A, f', w') (tokens_table t)) as HI by (eapply nth_error_In, tokens_nth; eauto). apply HR in HI as [_ HI].
    apply NA, K2, bm_get_keys. eauto.
  - intros HC.
    destruct (sorted_front (bm_keys rules) (bm_keys (t_follow t)) S1 S2) as (r & Er).
    { intros x Hx. apply K4, K3, K2, Hx. }
    { intros x y Hx Nx Hy. apply HC; [now apply K4|rewrite <- K2; exact Nx|now apply K2]. }
    intros A f w. split.
    + intros HI. apply In_nth_error in HI as (n & E). apply tokens_nth in E as (E1 & E2 & B & E3 & E4). split; auto.
      rewrite Er, nth_error_app1 in E1 by (apply nth_error_Some; congruence). congruence.
    + intros [E1 E2]. assert (In A (bm_keys (t_follow t))) as HI by (apply bm_get_keys; eauto). apply In_nth_error in HI as (n & E).
      eapply nth_error_In, tokens_nth. split; [|split; eauto]. rewrite Er, nth_error_app1; auto. apply nth_error_Some. congruence.
Qed.

(** row by row *)
Lemma tokens_general :
  (forall A, In A (bm_keys (t_follow t)) <-> followed rules start A) /\ sorted (bm_keys (t_follow t)) /\
  (forall n A f w, nth_error (tokens_table t) n = Some (A, f, w) <->
     nth_error (bm_keys rules) n = Some A /\ bm_get A (t_first t) = Some f /\ exists B, nth_error (bm_keys (t_follow t)) n = Some B /\ bm_get B (t_follow t) = Some w) /\
  ((forall A f w, In (A, f, w) (tokens_table t) <-> bm_get A (t_first t) = Some f /\ bm_get A (t_follow t) = Some w) <->
   forall A B, nonterm rules A -> ~ followed rules start A -> followed rules start B -> cmp B A = Lt).
Proof. destruct tables_keys as (_ & H1 & H2 & _). exact (conj H2 (conj H1 (conj tokens_nth tokens_right))). Qed.
End TokensTab.

Local Open Scope string_scope.
Local Open Scope list_scope.
Lemma unused_rows : wf_rules unused /\ grammar_new true "Z" unused "$" = Val unused_g /\ makes SLR true unused_g (tab SLR true 60 unused_g) /\
  bm_keys unused = ["A"; "S"; "Z"] /\ bm_keys (t_follow (tab SLR true 60 unused_g)) = ["S"; "Z"] /\
  tokens_table (tab SLR true 60 unused_g) = [("A", ["a"], ["$"; "y"]); ("S", ["w"; "x"], ["$"])].
Proof. split; [facts|]. split; [check|]. split; [apply tab_makes; check|]. split; [check|]. split; check. Qed.
