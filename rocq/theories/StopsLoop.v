(** Chains of corners that branch nowhere: the loops stop just when every cycle's length is a power of two (C113). *)
From Coq Require Import List Bool Arith Lia Relation_Operators.
From Verif Require Import BTree Model Base Spec SpecP GrammarP FirstFollow Interface Total StopsSpec Stops.
Import ListNotations.

Lemma divides_pow2 k : forall n, Nat.divide n (2 ^ k) -> power_of_two n.
Proof.
  induction k as [|k IH]; intros n H.
  - exists 0. cbn in *. now apply Nat.divide_1_r.
  - destruct H as (q & H). destruct (Nat.Even_or_Odd n) as [(m & Em)|On].
    + destruct (IH m) as (j & Ej).
      { exists q. cbn [Nat.pow] in H. nia. }
      exists (S j). cbn [Nat.pow]. lia.
    + destruct (Nat.Even_or_Odd q) as [(m & Em)|Oq].
      * apply IH. exists m. cbn [Nat.pow] in H. nia.
      * exfalso. pose proof (Nat.odd_mul q n) as O. rewrite <- H in O. apply Nat.odd_spec in On. apply Nat.odd_spec in Oq. rewrite On, Oq in O.
        cbn [Nat.pow] in O. rewrite Nat.odd_mul in O. discriminate.
Qed.

Lemma pow2_dec n : power_of_two n \/ ~ power_of_two n.
Proof.
  assert (G : forall b, (exists k, k < b /\ n = 2 ^ k) \/ forall k, k < b -> n <> 2 ^ k).
  { induction b as [|b [(k & L & E)|N]]; [right; lia|left; exists k; split; auto; lia|].
    destruct (Nat.eq_dec n (2 ^ b)) as [E|E]; [left; exists b; split; auto; lia|].
    right. intros k L. destruct (Nat.eq_dec k b) as [->|X]; auto. apply N. lia. }
  destruct (G (S n)) as [(k & _ & E)|N]; [left; now exists k|]. right. intros (k & E). apply (N k); auto.
  pose proof (Nat.pow_gt_lin_r 2 k ltac:(lia)). lia.
Qed.

Section Loops.
Context {T : Type} {OT : Ord T}.
Variable R : T -> T -> Prop.

Lemma steps_split n m A B : steps R (n + m) A B <-> exists C, steps R n A C /\ steps R m C B.
Proof.
  revert A. induction n as [|n IH]; intros A; cbn [Nat.add steps].
  - split; [eauto|]. now intros (C & -> & H).
  - split.
    + intros (C & H1 & H2). apply IH in H2 as (D & H2 & H3). exists D. split; auto. eauto.
    + intros (C & (D & H1 & H2) & H3). exists D. split; auto. apply IH. eauto.
Qed.

Lemma rounds_steps k : forall A B, rounds R k A B -> steps R (2 ^ k) A B.
Proof.
  induction k as [|k IH]; intros A B; cbn [rounds].
  - intros H. cbn. eauto.
  - intros [_ (C & H1 & H2)]. replace (2 ^ S k) with (2 ^ k + 2 ^ k) by (cbn; lia). apply steps_split. eauto.
Qed.

Lemma steps_mul n A : steps R n A A -> forall q, steps R (q * n) A A.
Proof. intros H. induction q as [|q IH]; [reflexivity|]. cbn [Nat.mul]. apply steps_split. eauto. Qed.

Lemma steps_or_loop U : (forall A B, R A B -> In A U) -> forall n A B, steps R n A B ->
  n <= length U \/ exists i p C, 1 <= p /\ i + p <= n /\ steps R i A C /\ steps R p C C.
Proof.
  intros HU n A B H.
  assert (G : (exists i p C, 1 <= p /\ i + p <= n /\ steps R i A C /\ steps R p C C) \/
     exists vis, length vis = n /\ NoDup vis /\ incl vis U /\ forall v, In v vis -> exists m, m < n /\ steps R m A v).
  { revert A H. induction n as [|n IH]; intros A H.
    - right. exists []. repeat split; [constructor|intros ? []|intros ? []].
    - destruct H as (A1 & H1 & H2). destruct (IH _ H2) as [(i & p & C & P1 & P2 & P3 & P4)|(vis & L & D & I0 & V)].
      + left. exists (S i), p, C. repeat split; auto; [lia|]. cbn [steps]. eauto.
      + destruct (in_dec (fun x y => match eqb_spec x y with ReflectT _ e => left e | ReflectF _ ne => right ne end) A vis) as [Hin|Hn].
        * left. apply V in Hin as (m & Lm & Hm). exists 0, (S m), A. repeat split; try lia. cbn [steps]. eauto.
        * right. exists (A :: vis). repeat split; [cbn; lia|now constructor| |].
          -- intros x [<-|Hx]; eauto.
          -- intros v [<-|Hv]; [exists 0; split; [lia|reflexivity]|]. apply V in Hv as (m & Lm & Hm). exists (S m). split; [lia|]. cbn [steps]. eauto. }
  destruct G as [G|(vis & L & D & I0 & _)]; auto. left. rewrite <- L. now apply NoDup_incl_length.
Qed.

Hypothesis F : functional R.

Lemma steps_fun n A B C : steps R n A B -> steps R n A C -> B = C.
Proof.
  revert A. induction n as [|n IH]; intros A; cbn [steps]; [congruence|].
  intros (D & H1 & H2) (D' & H1' & H2'). rewrite <- (F _ _ _ H1 H1') in H2'. eauto.
Qed.

Lemma steps_rest n m A B C : steps R n A B -> steps R (n + m) A C -> steps R m B C.
Proof. intros H1 H2. apply steps_split in H2 as (D & H2 & H3). now rewrite (steps_fun _ _ _ _ H1 H2). Qed.

Lemma loop_walk n A m : loop_of R n A -> exists B, steps R m A B.
Proof.
  intros (L & H & _). pose proof (steps_mul _ _ H m) as G. replace (m * n) with (m + m * (n - 1)) in G by nia.
  apply steps_split in G as (B & G & _). eauto.
Qed.

Lemma loop_divides n A m : loop_of R n A -> steps R m A A -> Nat.divide n m.
Proof.
  intros (L & H & M) Hm. rewrite (Nat.div_mod m n) in Hm by lia.
  assert (Hr : steps R (m mod n) A A).
  { apply (steps_rest (n * (m / n)) _ A); auto. rewrite Nat.mul_comm. now apply steps_mul. }
  pose proof (Nat.mod_upper_bound m n ltac:(lia)). apply Nat.mod_divide; [lia|].
  destruct (Nat.eq_dec (m mod n) 0) as [E|E]; auto. exfalso. apply (M (m mod n)); auto. lia.
Qed.

Lemma loop_step n A m B : loop_of R n A -> steps R m A B -> loop_of R n B.
Proof.
  intros LA Hm. pose proof LA as (L & H & M). split; auto. split.
  - apply (steps_rest m n A); auto. rewrite Nat.add_comm. apply steps_split. eauto.
  - intros q Lq Hq. apply (M q); auto.
    assert (Hb : steps R (m * (n - 1)) B A).
    { apply (steps_rest m _ A); auto. replace (m + m * (n - 1)) with (m * n) by nia. now apply steps_mul. }
    apply (steps_rest (m * n) q A); [now apply steps_mul|].
    replace (m * n + q) with (m + (q + m * (n - 1))) by nia. apply steps_split. exists B. split; auto. apply steps_split. eauto.
Qed.

Lemma loop_exists p C : 1 <= p -> steps R p C C -> exists n, n <= p /\ loop_of R n C.
Proof.
  intros L H.
  assert (G : forall q, q <= p -> (exists n, n < q /\ loop_of R n C) \/ forall m, 1 <= m < q -> ~ steps R m C C).
  { induction q as [|q IH]; intros Lq; [right; lia|]. destruct IH as [(n & Ln & Hn)|N]; [lia|left; exists n; split; auto; lia|].
    destruct (Nat.eq_dec q 0) as [->|Nq]; [right; lia|].
    assert (exists D, steps R q C D) as (D & HD).
    { replace p with (q + (p - q)) in H by lia. apply steps_split in H as (D & H & _). eauto. }
    destruct (eqb_spec C D) as [<-|NE].
    - left. exists q. split; [lia|]. split; [lia|]. auto.
    - right. intros m Lm Hm. destruct (Nat.eq_dec m q) as [->|X]; [apply NE; eapply steps_fun; eauto|apply (N m); auto; lia]. }
  destruct (G p (le_n _)) as [(n & Ln & Hn)|N]; [exists n; split; auto; lia|]. exists p. split; auto. split; auto.
Qed.

(** a cycle of any other length keeps the loop going *)
Lemma odd_loop_rounds n : ~ power_of_two n -> forall k C D, loop_of R n C -> steps R (2 ^ k) C D -> rounds R k C D.
Proof.
  intros NP. induction k as [|k IH]; intros C D LC H; cbn [rounds].
  - cbn in H. destruct H as (E & H & <-). exact H.
  - split.
    + intros <-. apply NP. apply (divides_pow2 (S k)). eapply loop_divides; eauto.
    + replace (2 ^ S k) with (2 ^ k + 2 ^ k) in H by (cbn; lia). apply steps_split in H as (E & H1 & H2). exists E.
      split; [now apply IH|]. apply IH; auto. eapply loop_step; eauto.
Qed.

Lemma odd_loop n A : loop_of R n A -> ~ power_of_two n -> ~ settles R.
Proof.
  intros LA NP (k & Hk). destruct (loop_walk _ _ (2 ^ k) LA) as (D & HD). pose proof (odd_loop_rounds n NP k A D LA HD) as H.
  apply Hk in H. apply rounds_steps in H. replace (2 ^ S k) with (2 ^ k + 2 ^ k) in H by (cbn; lia).
  pose proof (steps_rest _ _ _ _ _ HD H) as G. apply NP. apply (divides_pow2 k). eapply loop_divides; [|exact G]. eapply loop_step; eauto.
Qed.

Lemma rounds_none k C d : (forall B, ~ rounds R k C B) -> forall B, ~ rounds R (d + k) C B.
Proof. intros H. induction d as [|d IH]; auto. cbn [Nat.add rounds]. intros B [_ (D & H1 & _)]. exact (IH _ H1). Qed.

Lemma even_loops U : (forall A B, R A B -> In A U) -> (forall A n, loop_of R n A -> power_of_two n) -> vanishes R.
Proof.
  intros HU HP. exists (S (S (length U))). intros A B H. cbn [rounds] in H. destruct H as [_ (C & H1 & H2)].
  change (rounds R (S (length U)) A C) in H1. change (rounds R (S (length U)) C B) in H2.
  pose proof (rounds_steps _ _ _ H1) as G. pose proof (Nat.pow_gt_lin_r 2 (S (length U)) ltac:(lia)) as Lp.
  destruct (steps_or_loop U HU _ _ _ G) as [X|(i & p & Y & P1 & P2 & P3 & P4)]; [lia|].
  destruct (loop_exists _ _ P1 P4) as (n & Ln & LY). destruct (HP _ _ LY) as (j & Ej).
  replace (2 ^ S (length U)) with (i + (2 ^ S (length U) - i)) in G by lia. pose proof (steps_rest _ _ _ _ _ P3 G) as G2.
  pose proof (loop_step _ _ _ _ LY G2) as (_ & HC & _).
  assert (Lj : j <= S (length U)). { apply (Nat.pow_le_mono_r_iff 2); [lia|]. rewrite <- Ej. lia. }
  assert (E : exists m, m <= S (length U) /\ forall D, ~ rounds R m C D).
  { destruct j as [|j].
    - exists 1. split; [lia|]. intros D HD. pose proof (rounds_steps _ _ _ HD) as HD'. destruct HD as [N _]. apply N.
      change (2 ^ 1) with (1 + 1) in HD'. rewrite Ej in HC. apply (steps_fun (1 + 1) C); auto. apply steps_split. exists C. auto.
    - exists (S j). split; auto. intros D HD. pose proof (rounds_steps _ _ _ HD) as HD'. destruct HD as [N _]. apply N.
      rewrite <- Ej in HD'. eapply steps_fun; eauto. }
  destruct E as (m & Lm & Hm). apply (rounds_none m C (S (length U) - m) Hm B). replace (S (length U) - m + m) with (S (length U)) by lia. exact H2.
Qed.
Lemma settled_even A n : settles R -> loop_of R n A -> power_of_two n.
Proof. intros SR LA. destruct (pow2_dec n) as [H|H]; auto. destruct (odd_loop n A LA H SR). Qed.
End Loops.

Section New.
Context {T : Type} {OT : Ord T}.
Variables (dbg : bool) (start eof : T) (rules : rulemap T) (g : grammar T).
Hypothesis W : wf_rules rules.
Hypothesis Hg : grammar_new dbg start rules eof = Val g.
Hypothesis NE : noempty rules.
Hypothesis He : term rules eof.

Lemma vanishing_ptr : vanishes (left_corner rules) -> forall A B, follow_ptr rules A B <-> right_corner rules B A.
Proof.
  intros (k & V) A B. unfold follow_ptr. split; [|auto]. intros [H|(C & i & u & X & v & H1 & H2 & H3 & n & H4)]; auto.
  exfalso. specialize (H4 (n + k) ltac:(lia)). apply (rounds_none _ k X n) in H4; auto.
Qed.

Lemma vanishing_makes : vanishes (left_corner rules) -> vanishes (right_corner rules) -> exists t, tabler_makes dbg g t.
Proof.
  intros VL VR. destruct dbg eqn:Ed.
  - apply (new_debug true start eof rules g); auto.
  - apply (new_release false start eof rules g); auto. split; [now apply vanishes_settles|].
    apply (settles_ext _ _ (vanishing_ptr VL)). apply settles_flip. now apply vanishes_settles.
Qed.

Lemma unsettled_left : ~ settles (left_corner rules) -> forall fuel, tabler_new dbg fuel g = Fuel.
Proof.
  intros NS fuel. destruct dbg eqn:Ed.
  - destruct (new_debug true start eof rules g) as (D1 & D2 & D3 & _); auto. destruct (D3 fuel) as [(t & E)|[E|E]]; auto; exfalso; apply NS.
    + apply vanishes_settles. apply D1. exists t, fuel. exact E.
    + assert (exists fuel, tabler_new true fuel g = Panic P_debug_assert) as X by eauto. apply D2 in X as [[X _]|[X _]]; auto.
      now apply vanishes_settles.
  - destruct (new_release false start eof rules g) as (D1 & D2); auto. destruct (D2 fuel) as [(t & E)|E]; auto. exfalso. apply NS.
    apply D1. exists t, fuel. exact E.
Qed.

Lemma unsettled_right : vanishes (left_corner rules) -> ~ settles (right_corner rules) -> forall fuel, tabler_new dbg fuel g = Fuel.
Proof.
  intros VL NS fuel. destruct dbg eqn:Ed.
  - destruct (new_debug true start eof rules g) as (D1 & D2 & D3 & _); auto. destruct (D3 fuel) as [(t & E)|[E|E]]; auto; exfalso; apply NS.
    + apply vanishes_settles. apply D1. exists t, fuel. exact E.
    + assert (exists fuel, tabler_new true fuel g = Panic P_debug_assert) as X by eauto. apply D2 in X as [[_ X]|(_ & X & _)]; auto. contradiction.
  - destruct (new_release false start eof rules g) as (D1 & D2); auto. destruct (D2 fuel) as [(t & E)|E]; auto. exfalso. apply NS.
    apply settles_flip. apply (settles_ext _ _ (vanishing_ptr VL)). apply D1. exists t, fuel. exact E.
Qed.

Lemma corner_sources : (forall A B, left_corner rules A B -> In A (bm_keys rules)) /\ (forall A B, right_corner rules A B -> In A (bm_keys rules)).
Proof.
  assert (K : forall A, nonterm rules A -> In A (bm_keys rules)).
  { intros A (r & Hr). apply bm_get_in in Hr. apply in_map_iff. exists (A, r). auto. }
  split; intros A B (i & v & Hp & _); apply K; eapply prod_nonterm; eauto.
Qed.

Lemma chains : functional (left_corner rules) -> functional (right_corner rules) ->
  ((exists t, tabler_makes dbg g t) <->
     (forall A n, loop_of (left_corner rules) n A -> power_of_two n) /\ (forall A n, loop_of (right_corner rules) n A -> power_of_two n)) /\
  (forall fuel, (exists t, tabler_new dbg fuel g = Val t) \/ tabler_new dbg fuel g = Fuel).
Proof.
  intros FL FR. destruct corner_sources as [UL UR].
  assert (SL : settles (left_corner rules) -> vanishes (left_corner rules)).
  { intros S1. apply (even_loops _ FL _ UL). intros A n. now apply settled_even. }
  assert (SR : settles (right_corner rules) -> vanishes (right_corner rules)).
  { intros S1. apply (even_loops _ FR _ UR). intros A n. now apply settled_even. }
  split.
  - split.
    + intros (t & fuel & E).
      assert (HL : forall A n, loop_of (left_corner rules) n A -> power_of_two n).
      { intros A n LA. destruct (pow2_dec n) as [H|H]; auto. pose proof (odd_loop _ FL n A LA H) as X.
        rewrite (unsettled_left X) in E. discriminate. }
      split; auto. intros A n LA. destruct (pow2_dec n) as [H|H]; auto. pose proof (odd_loop _ FR n A LA H) as X.
      rewrite (unsettled_right (even_loops _ FL _ UL HL) X) in E. discriminate.
    + intros [HL HR]. apply vanishing_makes; [apply (even_loops _ FL _ UL HL)|apply (even_loops _ FR _ UR HR)].
  - intros fuel. destruct dbg eqn:Ed.
    + destruct (new_debug true start eof rules g) as (D1 & D2 & D3 & _); auto. destruct (D3 fuel) as [E|[E|E]]; auto. exfalso.
      assert (exists fuel, tabler_new true fuel g = Panic P_debug_assert) as X by eauto.
      apply D2 in X as [[X Y]|(_ & X & Y)]; auto.
    + destruct (new_release false start eof rules g) as (D1 & D2); auto.
Qed.

(** without cycles a walk meets no nonterminal twice, so the relation has died out once the walks would be that long *)
Lemma acyclic_rounds (R : T -> T -> Prop) U K : (forall A B, R A B -> In A U /\ In B U) -> (forall A, ~ clos_trans _ R A A) -> length U <= 2 ^ K ->
  forall A B, ~ rounds R K A B.
Proof.
  intros HU HC L A B H. apply rounds_steps in H.
  assert (G : forall n A B, steps R n A B -> n = 0 \/ exists vis, length vis = n /\ NoDup (A :: vis) /\ incl (A :: vis) U /\ forall v, In v vis -> clos_trans _ R A v).
  { clear A B H. induction n as [|n IH]; intros A B H; [now left|right]. destruct H as (C & H1 & H2). 
    assert (~ In A [C]) as NA by (intros [->|[]]; apply (HC A); now apply t_step).
    destruct (IH _ _ H2) as [->|(vis & L1 & L2 & L3 & L4)].
    - exists [C]. split; auto. split; [repeat constructor; auto|]. destruct (HU _ _ H1). split; [intros x [<-|[<-|[]]]; auto|].
      intros v [<-|[]]. now apply t_step.
    - exists (C :: vis). split; [cbn; lia|]. assert (X : forall v, In v (C :: vis) -> clos_trans _ R A v).
      { intros v [<-|Hv]; [now apply t_step|]. eapply t_trans; [apply t_step; exact H1|auto]. }
      split; [constructor; auto; intros Hin; exact (HC A (X A Hin))|]. split; auto. intros x [<-|Hx]; auto. apply (HU _ _ H1). }
  destruct (G _ _ _ H) as [E|(vis & L1 & L2 & L3 & _)]; [pose proof (Nat.pow_nonzero 2 K); lia|].
  pose proof (NoDup_incl_length L2 L3). cbn [length] in *. lia.
Qed.

Lemma acyclic_steps (R : T -> T -> Prop) K : (forall A, ~ clos_trans _ R A A) -> forall A B, rounds R K A B <-> steps R (2 ^ K) A B.
Proof.
  intros HC. assert (G : forall n A B, 0 < n -> steps R n A B -> clos_trans _ R A B).
  { induction n as [|n IH]; intros A B L H; [lia|]. destruct H as (C & H1 & H2). destruct n as [|n].
    - cbn in H2. subst. now apply t_step.
    - eapply t_trans; [apply t_step; exact H1|]. apply IH; auto. lia. }
  induction K as [|K IH]; intros A B; (split; [apply rounds_steps|]); intros H.
  - destruct H as (C & H & <-). exact H.
  - split; [intros ->; apply (HC B), (G (2 ^ S K)); [apply Nat.neq_0_lt_0, Nat.pow_nonzero; discriminate|exact H]|].
    replace (2 ^ S K) with (2 ^ K + 2 ^ K) in H by (cbn; lia). apply steps_split in H as (C & H1 & H2). exists C. split; now apply IH.
Qed.

Lemma new_exact r : no_left_cycle rules -> no_right_cycle rules -> 1 <= r ->
  (exists t, tabler_new dbg (S r) g = Val t) <->
  (forall A B, ~ steps (left_corner rules) (2 ^ r) A B) /\ (forall A B, ~ steps (right_corner rules) (2 ^ r) A B).
Proof.
  intros HL HR N. destruct corner_sources as [UL UR].
  assert (KN : forall B, nonterm rules B -> In B (bm_keys rules)).
  { intros B (rl & H). apply bm_mem_keys. unfold bm_mem. now rewrite H. }
  assert (V : forall R : T -> T -> Prop, (forall A B, R A B -> In A (bm_keys rules) /\ In B (bm_keys rules)) -> (forall A, ~ clos_trans _ R A A) -> vanishes R).
  { intros R H1 H2. exists (length (bm_keys rules)). apply (acyclic_rounds R (bm_keys rules)); auto. apply Nat.lt_le_incl, Nat.pow_gt_lin_r. lia. }
  split.
  - intros (t & E). destruct (new_slow dbg start eof rules g W Hg NE He r t) as [G1 G2]; auto.
    + apply V; auto. intros A B H. split; eauto. destruct H as (i & v & _ & H & _); auto.
    + apply V; auto. intros A B H. split; eauto. destruct H as (i & v & _ & H & _); auto.
    + split; intros A B H; [apply (G1 A B)|apply (G2 A B)]; now apply acyclic_steps.
  - intros [G1 G2]. apply (new_fast dbg start eof rules g W Hg NE He); auto; intros A B H; [apply (G1 A B)|apply (G2 A B)]; now apply rounds_steps.
Qed.

Lemma new_log r : no_left_cycle rules -> no_right_cycle rules -> 1 <= r -> length rules <= 2 ^ r -> exists t, tabler_new dbg (S r) g = Val t.
Proof.
  intros HL HR N LR. destruct corner_sources as [UL UR].
  assert (LK : length (bm_keys rules) <= 2 ^ r) by (unfold bm_keys; now rewrite map_length).
  assert (KN : forall B, nonterm rules B -> In B (bm_keys rules)).
  { intros B (rl & H). apply bm_mem_keys. unfold bm_mem. now rewrite H. }
  apply (new_fast dbg start eof rules g W Hg NE He); auto; eapply acyclic_rounds; eauto.
  - intros A B H. split; eauto. destruct H as (i & v & _ & H & _); auto.
  - intros A B H. split; eauto. destruct H as (i & v & _ & H & _); auto.
Qed.
End New.
