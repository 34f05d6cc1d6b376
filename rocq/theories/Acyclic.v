(** A conflict-free table of a reduced grammar excludes unit cycles, hence termination (C59). *)
From Coq Require Import List Bool Arith Lia.
From Verif Require Import BTree Model Base Spec SpecP Interface Wrap Export.
Import ListNotations.

Section Size.
Context {T : Type} {OT : Ord T}.
Variable rules : rulemap T.

Fixpoint size (t : tree T) : nat :=
  match t with Leaf _ => 0 | Node _ _ cs => S (list_sum (map size cs)) end.
Definition sizes (l : list (tree T)) : nat := list_sum (map size l).

Lemma sizes_app l1 l2 : sizes (l1 ++ l2) = sizes l1 + sizes l2.
Proof. unfold sizes. now rewrite map_app, list_sum_app. Qed.

Lemma trees_app_inv u : forall v w ts, trees_of rules (u ++ v) w ts ->
  exists w1 w2 t1 t2, w = w1 ++ w2 /\ ts = t1 ++ t2 /\ trees_of rules u w1 t1 /\ trees_of rules v w2 t2.
Proof.
  induction u as [|X u IH]; intros v w ts H; simpl in H.
  - exists [], w, [], ts. repeat split; auto. constructor.
  - inversion H as [|X' Xs w1 w2 t ts' Ht Hts]; subst. destruct (IH _ _ _ Hts) as (w3 & w4 & t1 & t2 & -> & -> & H1 & H2).
    exists (w1 ++ w3), w4, (t :: t1), t2. rewrite app_assoc. repeat split; auto. now constructor.
Qed.

Lemma trees_app u v w1 w2 t1 t2 : trees_of rules u w1 t1 -> trees_of rules v w2 t2 -> trees_of rules (u ++ v) (w1 ++ w2) (t1 ++ t2).
Proof.
  intros H1 H2. revert t1 w1 H1. induction u as [|X u IH]; intros t1 w1 H1; inversion H1; subst; simpl; auto.
  rewrite <- app_assoc. constructor; auto.
Qed.

(** trees for the end of a derivation extend to trees for its beginning, larger by the number of steps *)
Lemma grow u v : derives rules u v -> exists n, (u = v \/ 0 < n) /\ forall w ts, trees_of rules v w ts ->
  exists ts', trees_of rules u w ts' /\ sizes ts' = n + sizes ts.
Proof.
  induction 1 as [u|u v x H1 H2 (n & _ & IH)].
  - exists 0. split; auto. intros w ts H. exists ts. auto.
  - exists (S n). split; [right; lia|]. intros w ts Hts. destruct (IH _ _ Hts) as (ts1 & H3 & H4).
    inversion H1 as [a A b i rhs Hp E1 E2]; subst.
    apply trees_app_inv in H3 as (w1 & w2 & t1 & t2 & -> & -> & Ha & H3). apply trees_app_inv in H3 as (w3 & w4 & t3 & t4 & -> & -> & Hr & Hb).
    exists (t1 ++ Node A i t3 :: t4). split.
    + apply trees_app; auto. constructor; auto. econstructor; eauto.
    + rewrite !sizes_app in *. unfold sizes in *. simpl in *. lia.
Qed.

Lemma term_trees w : Forall (term rules) w -> trees_of rules w w (map Leaf w).
Proof.
  induction 1 as [|x w Hx Hw IH]; simpl; [constructor|]. change (x :: w) with ([x] ++ w) at 2. constructor; auto. now constructor.
Qed.

Lemma form_trees u : (forall X, In X u -> nonterm rules X -> exists w, derives rules [X] w /\ Forall (term rules) w) -> exists w ts, trees_of rules u w ts.
Proof.
  induction u as [|X u IH]; intros H.
  - exists [], []. constructor.
  - destruct IH as (w2 & ts & Ht). { intros Y HY. apply H. now right. }
    destruct (bm_get X rules) as [r|] eqn:E.
    + destruct (H X (or_introl eq_refl)) as (w & Hd & Hw). { now exists r. }
      destruct (grow _ _ Hd) as (n & _ & G). destruct (G _ _ (term_trees _ Hw)) as (ts1 & H1 & _).
      inversion H1 as [|? ? w3 w4 t ts' Ha Hb]; subst. inversion Hb; subst.
      exists (w3 ++ w2), (t :: ts). now constructor.
    + exists ([X] ++ w2), (Leaf X :: ts). constructor; auto. constructor. intros [r Hr]. congruence.
Qed.

Lemma unit_derives A B : unit_chain rules A B -> exists v, rewrites rules [A] v /\ derives rules v [B].
Proof.
  induction 1 as [A i B Hp Hn|A i B C Hp Hn H (v & H1 & H2)].
  - exists [B]. split; [apply (rewrites_intro rules [] A [] i [B]); auto|constructor].
  - exists [B]. split; [apply (rewrites_intro rules [] A [] i [B]); auto|]. econstructor; eauto.
Qed.

Lemma unamb_acyclic start : productive rules -> reachable rules start ->
  (forall w t1 t2, tree_of rules start w t1 -> tree_of rules start w t2 -> t1 = t2) -> no_unit_cycle rules.
Proof.
  intros Hp Hr Hu A HA.
  assert (nonterm rules A) as Hn. { inversion HA as [A' i B (r & k & E & _)|A' i B C (r & k & E & _)]; subst; now exists r. }
  destruct (Hr A Hn) as (u & v & Hd).
  assert (exists w ts, trees_of rules (u ++ A :: v) w ts) as (w & ts & Hts) by (apply form_trees; intros X _; apply Hp).
  apply trees_app_inv in Hts as (w1 & w2 & t1 & t2 & -> & -> & H1 & H2). inversion H2 as [|? ? w3 w4 t ts' H3 H4]; subst.
  destruct (unit_derives _ _ HA) as (x & Hx1 & Hx2). destruct (grow _ _ Hx2) as (n & _ & G).
  destruct (G w3 [t]) as (ts1 & Ht1 & Es). { rewrite <- (app_nil_r w3). constructor; auto. constructor. }
  assert (exists tA, tree_of rules A w3 tA /\ size tA = S n + size t) as (tA & HtA & EsA).
  { inversion Hx1 as [a B b i rhs Hpr E1 E2]; subst. destruct a as [|? [|]]; simpl in E1; try discriminate. injection E1 as E3 E4. subst B b.
    simpl in *. rewrite app_nil_r in *. exists (Node A i ts1). split; [econstructor; eauto|]. simpl. unfold sizes in Es. simpl in Es. lia. }
  destruct (grow _ _ Hd) as (m & _ & G2).
  destruct (G2 (w1 ++ w3 ++ w4) (t1 ++ t :: ts')) as (l1 & L1 & S1). { apply trees_app; auto. }
  destruct (G2 (w1 ++ w3 ++ w4) (t1 ++ tA :: ts')) as (l2 & L2 & S2). { apply trees_app; auto. constructor; auto. }
  inversion L1 as [|? ? a1 a2 b1 b2 L3 L4]; subst. inversion L4; subst. inversion L2 as [|? ? c1 c2 d1 d2 L5 L6]; subst. inversion L6; subst.
  rewrite !app_nil_r in *. subst. rewrite (Hu _ _ _ L3 L5) in S1. rewrite !sizes_app in *. unfold sizes in *. simpl in *. lia.
Qed.
End Size.

Section Export.
Context {T : Type} {OT : Ord T}.
Variables (dbg : bool) (start eof : T) (rules : rulemap T) (g : grammar T).
Hypothesis W : wf_rules rules.
Hypothesis Hg : grammar_new dbg start rules eof = Val g.

Lemma clean_no_unit k t : makes k dbg g t -> k <> LALR \/ carries t -> term rules eof -> start_fresh rules start -> dbg = true \/ single_start rules start ->
  productive rules -> reachable rules start -> conflicts (t_actions t) = [] -> no_unit_cycle rules.
Proof.
  intros Hm Hk He Hf Hs Hp Hr Hc. assert (single_start rules start) as H1 by (destruct Hs as [->|Hs]; auto; eapply debug_single; eauto).
  eapply unamb_acyclic; eauto. intros w t1 t2. eapply clean_unamb; eauto.
Qed.

Lemma clean_total k t : makes k dbg g t -> k <> LALR \/ carries t -> term rules eof -> start_fresh rules start -> dbg = true \/ single_start rules start ->
  productive rules -> reachable rules start -> conflicts (t_actions t) = [] ->
  (forall M (maps : reductmap T M) input, covers rules maps -> Forall (term rules) (map tk_ty input) -> exists r, parses t input maps r) /\
  (forall input, Forall (term rules) (map tk_ty input) -> exists b, validates t input b).
Proof. intros. eapply acyclic_total; eauto. eapply clean_no_unit; eauto. Qed.
End Export.
