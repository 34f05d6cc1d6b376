(** Exactly when [Tabler::new] returns, panics, or runs forever (C112). *)
From Coq Require Import List Bool Arith Lia.
From Verif Require Import BTree Model Base Spec SpecP GrammarP FirstFollow Closure Halt Interface Total StopsSpec.
Import ListNotations.

(** ** the relation alone *)
Section Rounds.
Context {T : Type}.
Implicit Types R Q : T -> T -> Prop.

Lemma rounds_ext R Q : (forall A B, R A B <-> Q A B) -> forall k A B, rounds R k A B <-> rounds Q k A B.
Proof.
  intros H. induction k as [|k IH]; intros A B; cbn [rounds]; [apply H|].
  split; intros [N (C & H1 & H2)]; split; auto; exists C; split; apply IH; auto.
Qed.

Lemma rounds_flip R k A B : rounds (fun a b => R b a) k A B <-> rounds R k B A.
Proof.
  revert A B. induction k as [|k IH]; intros A B; cbn [rounds]; [reflexivity|].
  split; intros [N (C & H1 & H2)]; (split; [auto|]); exists C; split; apply IH; auto.
Qed.

Lemma rounds_from R k : (forall A B, rounds R k A B <-> rounds R (S k) A B) ->
  forall n, k <= n -> forall A B, rounds R n A B <-> rounds R k A B.
Proof.
  intros H n L. induction L as [|n L IH]; intros A B; [reflexivity|].
  rewrite (H A B). cbn [rounds]. split; intros [N (C & H1 & H2)]; split; auto; exists C; split; apply IH; auto.
Qed.

Lemma settles_ext R Q : (forall A B, R A B <-> Q A B) -> settles R <-> settles Q.
Proof.
  intros H. split; intros (k & Hk); exists k; intros A B.
  - rewrite <- !(rounds_ext R Q H). apply Hk.
  - rewrite !(rounds_ext R Q H). apply Hk.
Qed.

Lemma vanishes_ext R Q : (forall A B, R A B <-> Q A B) -> vanishes R <-> vanishes Q.
Proof.
  intros H. split; intros (k & Hk); exists k; intros A B.
  - rewrite <- (rounds_ext R Q H). apply Hk.
  - rewrite (rounds_ext R Q H). apply Hk.
Qed.

Lemma lasting_ext R Q : (forall A B, R A B <-> Q A B) -> forall A B, lasting R A B <-> lasting Q A B.
Proof. intros H A B. split; intros (k & Hk); exists k; intros n L; apply (rounds_ext R Q H); auto. Qed.

Lemma settles_flip R : settles (fun a b => R b a) <-> settles R.
Proof.
  split; intros (k & Hk); exists k; intros A B; pose proof (rounds_flip R k) as E1; pose proof (rounds_flip R (S k)) as E2.
  - rewrite <- (E1 B A), <- (E2 B A). apply Hk.
  - rewrite (E1 A B), (E2 A B). apply Hk.
Qed.

Lemma vanishes_flip R : vanishes (fun a b => R b a) <-> vanishes R.
Proof. split; intros (k & Hk); exists k; intros A B H; apply (Hk B A); apply (rounds_flip R); exact H. Qed.

Lemma vanishes_settles R : vanishes R -> settles R.
Proof. intros (k & Hk). exists k. intros A B. split; [intros H; destruct (Hk _ _ H)|intros [_ (C & H & _)]; destruct (Hk _ _ H)]. Qed.

Lemma rounds_into R (P : T -> Prop) : (forall A B, R A B -> P B) -> forall k A B, rounds R k A B -> P B.
Proof. intros H. induction k as [|k IH]; cbn [rounds]; intros A B; eauto. intros [_ (C & _ & H2)]. eauto. Qed.
End Rounds.

Section Sets.
Context {T : Type} {OT : Ord T}.

Lemma sub_length (a b : bset T) : sorted a -> sorted b -> incl a b -> length a <= length b /\ (length b <= length a -> a = b).
Proof.
  intros Ha Hb Hi. split; [apply NoDup_incl_length; auto using sorted_NoDup|]. intros L.
  apply sorted_ext; auto. intros z. split; [apply Hi|]. now apply (NoDup_length_incl (sorted_NoDup _ Ha) L Hi).
Qed.

Lemma bm_get_map {V} (f : T -> V -> V) (l : bmap T V) k :
  bm_get k (map (fun e => (fst e, f (fst e) (snd e))) l) = match bm_get k l with Some s => Some (f k s) | None => None end.
Proof.
  induction l as [|[k' v] l IH]; simpl; auto. destruct (eqb_spec k k') as [->|N]; auto.
Qed.

Lemma follow_step_map (g : grammar T) input : msorted input ->
  follow_step g input = map (fun e => (fst e, jump g input (fst e) (snd e))) input.
Proof.
  intros Hs. apply msorted_ext.
  - now apply follow_step_sorted.
  - unfold msorted in *. rewrite map_map. cbn [fst]. exact Hs.
  - intros k. rewrite follow_step_get by auto. symmetry. apply (bm_get_map (jump g input)).
Qed.

Definition size (tbl : table T) : nat := list_sum (map (fun e => length (snd e)) tbl).

Lemma size_map (f : T -> bset T -> bset T) (l : table T) :
  (forall A s, In (A, s) l -> sorted s /\ sorted (f A s) /\ incl s (f A s)) ->
  size l <= size (map (fun e => (fst e, f (fst e) (snd e))) l) /\
  (size (map (fun e => (fst e, f (fst e) (snd e))) l) <= size l -> map (fun e => (fst e, f (fst e) (snd e))) l = l).
Proof.
  unfold size. induction l as [|[A s] l IH]; intros H; [simpl; auto|].
  destruct IH as [I1 I2]; [intros; apply H; now right|]. destruct (H A s (or_introl eq_refl)) as (H1 & H2 & H3).
  destruct (sub_length _ _ H1 H2 H3) as [L1 L2]. cbn [map list_sum fold_right fst snd] in *. unfold list_sum in *. split; [lia|].
  intros L. rewrite I2 by lia. f_equal. rewrite <- L2 by lia. reflexivity.
Qed.

Lemma size_bound (l : table T) n : (forall A s, In (A, s) l -> length s <= n) -> size l <= length l * n.
Proof.
  unfold size. induction l as [|[A s] l IH]; intros H; [simpl; auto|]. pose proof (H A s (or_introl eq_refl)).
  assert (IH' := IH (fun A s Hin => H A s (or_intror Hin))). cbn [map list_sum fold_right length snd] in *. unfold list_sum in *. lia.
Qed.
End Sets.

(** ** the loop, from a table whose keys are nonterminals *)
Section Loop.
Context {T : Type} {OT : Ord T}.
Variable g : grammar T.
Notation rules := (g_rules g).
Variable tbl0 : table T.
Hypothesis S0 : msorted tbl0.
Hypothesis K0 : forall A s, bm_get A tbl0 = Some s -> nonterm rules A.

Definition ptr (A B : T) : Prop := tin tbl0 A B /\ nonterm rules B.
Definition after (n : nat) : table T := Nat.iter n (follow_step g) tbl0.

Lemma after_S n : after (S n) = follow_step g (after n). Proof. reflexivity. Qed.

Lemma after_inv n : tinv g tbl0 (after n).
Proof. induction n as [|n IH]; [now apply tinv_refl|]. rewrite after_S. now apply tinv_step. Qed.

Lemma after_sorted n : msorted (after n). Proof. apply after_inv. Qed.

Lemma after_key n A s : bm_get A (after n) = Some s -> nonterm rules A.
Proof.
  intros E. destruct (after_inv n) as (_ & Hk & _). specialize (Hk A). unfold bm_mem in Hk. rewrite E in Hk.
  destruct (bm_get A tbl0) eqn:E0; [|discriminate]. eauto.
Qed.

Lemma after_rounds n : forall A B, nonterm rules B -> (tin (after n) A B <-> rounds ptr n A B).
Proof.
  induction n as [|n IH]; intros A B HB.
  - cbn [rounds]. unfold ptr. tauto.
  - rewrite after_S, tin_step by apply after_sorted. cbn [rounds]. split.
    + intros [N (x & Hx & [[Hx1 ->]|[Hn Hx2]])]; [contradiction|]. split; auto. exists x. split; apply IH; auto.
    + intros [N (C & H1 & H2)]. split; auto. exists C.
      assert (nonterm rules C) as HC by (revert H1; apply rounds_into; now intros ? ? [_ ?]).
      split; [now apply IH|]. right. split; auto. now apply IH.
Qed.

Lemma term_dec x : term rules x \/ nonterm rules x.
Proof.
  destruct (is_terminal g x) eqn:E; [left; now apply is_terminal_term|right; now apply is_terminal_nonterm].
Qed.

Lemma after_grow k : (forall A B, rounds ptr k A B <-> rounds ptr (S k) A B) ->
  forall n, k <= n -> forall A x, tin (after n) A x -> tin (after (S n)) A x.
Proof.
  intros Hk n L A x H. destruct (term_dec x) as [Ht|Hn].
  - rewrite after_S. apply tin_step; [apply after_sorted|]. split.
    + intros ->. apply Ht. destruct H as (s & E & _). eapply after_key; eauto.
    + exists x. auto.
  - apply after_rounds; auto. apply after_rounds in H; auto.
    apply (rounds_from _ _ Hk) in H; auto. apply (rounds_from _ _ Hk); auto.
Qed.

Lemma after_sets n A s : 1 <= n -> In (A, s) (after n) -> sorted s.
Proof.
  intros L Hin. destruct n as [|n]; [lia|]. rewrite after_S, follow_step_map in Hin by apply after_sorted.
  apply in_map_iff in Hin as ([B s'] & [= <- <-] & _). apply jump_sorted.
Qed.

Lemma after_size k : (forall A B, rounds ptr k A B <-> rounds ptr (S k) A B) -> forall n, k <= n -> 1 <= n ->
  size (after n) <= size (after (S n)) /\ (size (after (S n)) <= size (after n) -> after (S n) = after n).
Proof.
  intros Hk n L L1. rewrite after_S, follow_step_map by apply after_sorted.
  apply (size_map (jump g (after n))). intros A s Hin. split; [eapply after_sets; eauto|]. split; [apply jump_sorted|].
  intros x Hx. pose proof (bm_in_get _ _ _ (after_sorted n) Hin) as E.
  destruct (after_grow k Hk n L A x) as (s' & E' & Hx'); [exists s; auto|].
  rewrite after_S, follow_step_get, E in E' by apply after_sorted. injection E' as <-. exact Hx'.
Qed.

Lemma after_length n : length (after n) = length tbl0.
Proof.
  induction n as [|n IH]; auto. rewrite after_S, follow_step_map, map_length by apply after_sorted. exact IH.
Qed.

Lemma after_bound n : 1 <= n -> size (after n) <= length tbl0 * length (flat_map snd tbl0).
Proof.
  intros L. rewrite <- (after_length n). apply size_bound. intros A s Hin.
  apply NoDup_incl_length; [apply sorted_NoDup; eapply after_sets; eauto|]. intros x Hx.
  destruct (after_inv n) as (_ & _ & _ & H). destruct (H A x) as (B & s' & E & Hx').
  { exists s. split; auto. apply bm_in_get; auto. apply after_sorted. }
  apply in_flat_map. exists (B, s'). split; auto. now apply bm_get_in.
Qed.

Lemma settles_fixed : settles ptr -> exists m, after (S m) = after m.
Proof.
  intros (k & Hk).
  assert (G : forall d n, k <= n -> 1 <= n -> length tbl0 * length (flat_map snd tbl0) - size (after n) <= d -> exists m, after (S m) = after m).
  { induction d as [|d IH]; intros n L L1 Hd; destruct (after_size k Hk n L L1) as [G1 G2];
      pose proof (after_bound n L1); pose proof (after_bound (S n) ltac:(lia)).
    - exists n. apply G2. lia.
    - destruct (le_lt_dec (size (after (S n))) (size (after n))) as [X|X]; [exists n; auto|]. apply (IH (S n)); lia. }
  eapply (G _ (S k)); [lia|lia|reflexivity].
Qed.

Lemma fixed_rounds m : after (S m) = after m -> forall A B, rounds ptr m A B <-> rounds ptr (S m) A B.
Proof.
  intros E A B. assert (P : forall n, rounds ptr n A B -> nonterm rules B) by (intros n; apply rounds_into; now intros ? ? [_ ?]).
  split; intros H; pose proof (P _ H) as HB; apply after_rounds; auto; apply after_rounds in H; auto; congruence.
Qed.

(** *** running it *)
Variable f : table T -> res (table T).
Hypothesis Hf : forall n, f (after n) = Val (follow_step g (after n)).

Lemma loop_inv fuel : forall n v, transitive fuel (after n) f = Val v -> exists m, v = after m /\ after (S m) = after m /\ m < n + fuel.
Proof.
  induction fuel as [|fuel IH]; intros n v E; cbn [transitive] in E; [discriminate|].
  rewrite Hf in E. cbn [bind] in E. rewrite <- after_S in E. destruct (eqb_spec (after (S n)) (after n)) as [Eq|Ne].
  - injection E as <-. exists n. repeat split; auto. lia.
  - apply IH in E as (m & E1 & E2 & E3). exists m. repeat split; auto. lia.
Qed.

Lemma loop_fuel fuel : forall n, (exists v, transitive fuel (after n) f = Val v) \/ transitive fuel (after n) f = Fuel.
Proof.
  induction fuel as [|fuel IH]; intros n; cbn [transitive]; auto. rewrite Hf. cbn [bind]. rewrite <- after_S.
  destruct (eqb _ _); eauto.
Qed.

Lemma loop_stops m : after (S m) = after m -> forall d n, n + d = m -> exists v, transitive (S d) (after n) f = Val v.
Proof.
  intros E. induction d as [|d IH]; intros n L; cbn [transitive]; rewrite Hf; cbn [bind]; rewrite <- after_S.
  - assert (n = m) as -> by lia. rewrite E, eqb_refl. eauto.
  - destruct (eqb _ _); eauto. apply IH. lia.
Qed.

Lemma loop_fast K : 1 <= K -> (forall A B, ~ rounds ptr K A B) -> exists v, transitive (S K) tbl0 f = Val v.
Proof.
  intros L H. apply (loop_stops K) with (n := 0); auto. rewrite after_S. apply msorted_ext; [apply follow_step_sorted|apply after_sorted|].
  intros A. rewrite follow_step_get by apply after_sorted. destruct (bm_get A (after K)) as [s|] eqn:E; auto. f_equal.
  assert (Ht : forall x, In x s -> term rules x).
  { intros x Hx Hn. apply (H A x). apply after_rounds; [exact Hn|]. exists s. auto. }
  apply sorted_ext.
  - apply jump_sorted.
  - apply (after_sets K A); auto. now apply bm_get_in.
  - intros x. rewrite jump_in. split.
    + intros [_ (y & Hy & [[_ ->]|[Hn _]])]; auto. exfalso. exact (Ht _ Hy Hn).
    + intros Hx. split; [|exists x; auto]. intros ->. apply (Ht _ Hx). eapply after_key; eauto.
Qed.

Lemma loop_iff : (exists fuel v, transitive fuel tbl0 f = Val v) <-> settles ptr.
Proof.
  split.
  - intros (fuel & v & E). apply (loop_inv _ 0) in E as (m & _ & E & _). exists m. now apply fixed_rounds.
  - intros H. destruct (settles_fixed H) as (m & E). exists (S m). apply (loop_stops m E m 0 eq_refl).
Qed.

Lemma loop_when fuel v : transitive fuel tbl0 f = Val v -> exists m, m < fuel /\ forall A B, rounds ptr m A B <-> rounds ptr (S m) A B.
Proof. intros E. apply (loop_inv _ 0) in E as (m & _ & E & L). exists m. split; auto. now apply fixed_rounds. Qed.

Lemma loop_val fuel v : transitive fuel tbl0 f = Val v ->
  msorted v /\ (forall A, bm_mem A v = bm_mem A tbl0) /\
  (forall A B, nonterm rules B -> (tin v A B <-> lasting ptr A B)) /\
  (all_terminal g v = true <-> vanishes ptr).
Proof.
  intros E. apply (loop_inv _ 0) in E as (m & -> & E & _). pose proof (rounds_from _ _ (fixed_rounds m E)) as F.
  split; [apply after_sorted|]. split; [apply after_inv|]. split.
  - intros A B HB. rewrite after_rounds by auto. split.
    + intros H. exists m. intros n L. now apply F.
    + intros (k & H). apply (F (m + k) ltac:(lia)). apply H. lia.
  - split.
    + intros H. exists m. intros A B HR. assert (nonterm rules B) as HB by (revert HR; apply rounds_into; now intros ? ? [_ ?]).
      apply after_rounds in HR as (s & Es & Hx); auto. apply bm_get_in in Es. unfold all_terminal in H. rewrite forallb_forall in H.
      apply H in Es. rewrite forallb_forall in Es. apply Es in Hx. cbn [snd] in Hx. apply is_terminal_term in Hx. contradiction.
    + intros (k & H). apply all_terminal_true; [apply after_sorted|]. intros A x Hx HB.
      assert (HB' : nonterm rules x) by exact HB.
      apply after_rounds in Hx; auto. apply (F (m + k) ltac:(lia)) in Hx.
      assert (G : forall d A B, ~ rounds ptr (d + k) A B).
      { induction d as [|d IH]; intros A' B'; [apply H|]. cbn [Nat.add rounds]. intros [_ (C & H1 & _)]. exact (IH _ _ H1). }
      exact (G _ _ _ Hx).
Qed.
End Loop.

(** ** [Tabler::new] *)
Section New.
Context {T : Type} {OT : Ord T}.
Variables (dbg : bool) (start eof : T) (rules : rulemap T) (g : grammar T).
Hypothesis W : wf_rules rules.
Hypothesis Hg : grammar_new dbg start rules eof = Val g.
Hypothesis NE : noempty rules.
Hypothesis He : term rules eof.
Notation L := (left_corner rules).
Let Er : g_rules g = rules.
Proof. exact (proj1 (grammar_new_inv _ _ _ _ _ Hg)). Qed.
Let Wg : wf_rules (g_rules g).
Proof. rewrite Er. exact W. Qed.

(** the FIRST half *)
Lemma first_half : exists f0, gen_first g = Val f0 /\ 
  (forall fuel, (exists f, transitive fuel f0 (first_step g) = Val f) \/ transitive fuel f0 (first_step g) = Fuel) /\
  ((exists fuel f, transitive fuel f0 (first_step g) = Val f) <-> settles L) /\
  (forall fuel f, transitive fuel f0 (first_step g) = Val f ->
     (forall A, nonterm rules A -> exists s, bm_get A f = Some s) /\
     (forall A B, nonterm rules B -> (tin f A B <-> lasting L A B)) /\
     (all_terminal g f = true <-> vanishes L)) /\
  (forall K, 1 <= K -> (forall A B, ~ rounds L K A B) -> exists f, transitive (S K) f0 (first_step g) = Val f) /\
  (forall fuel f, transitive fuel f0 (first_step g) = Val f -> exists m, m < fuel /\ forall A B, rounds L m A B <-> rounds L (S m) A B).
Proof.
  rewrite <- Er in *. destruct (gen_first_total g Wg NE) as (f0 & E0). exists f0. split; auto.
  pose proof (gen_first_spec g Wg _ E0) as (_ & Hs & Hk & Hx).
  assert (K0 : forall A s, bm_get A f0 = Some s -> nonterm (g_rules g) A) by (intros A s Es; apply Hk; eauto).
  assert (HP : forall A B, ptr g f0 A B <-> left_corner (g_rules g) A B).
  { intros A B. unfold ptr, left_corner. rewrite Hx. split.
    - intros [[N (i & v & Hp)] HB]. exists i, v. auto.
    - intros (i & v & Hp & HB & N). repeat split; auto. eauto. }
  assert (Kn : forall n A, nonterm (g_rules g) A -> exists s, bm_get A (after g f0 n) = Some s).
  { intros n A HA. apply Hk in HA as (s & Es). destruct (after_inv g f0 Hs n) as (_ & Hm & _). specialize (Hm A). unfold bm_mem in Hm.
    rewrite Es in Hm. destruct (bm_get A (after g f0 n)); [eauto|discriminate]. }
  assert (Hf : forall n, first_step g (after g f0 n) = Val (follow_step g (after g f0 n))).
  { intros n. apply first_step_follow_step; [|now apply after_sorted]. intros A x _ HB. now apply Kn. }
  split; [intros fuel; apply (loop_fuel g f0 _ Hf fuel 0)|].
  split; [rewrite (loop_iff g f0 Hs K0 _ Hf); now apply settles_ext|].
  split; [|split; [intros K LK HK; apply (loop_fast g f0 Hs K0 _ Hf K LK); intros A B HR; apply (HK A B); now apply (rounds_ext _ _ HP)|
    intros fuel x E; destruct (loop_when g f0 Hs _ Hf _ _ E) as (m & Lm & HM); exists m; split; auto;
    intros A B; rewrite <- (rounds_ext _ _ HP m A B), <- (rounds_ext _ _ HP (S m) A B); apply HM]].
  intros fuel f E. destruct (loop_val g f0 Hs _ Hf _ _ E) as (_ & Hm & Hl & Ha). split; [|split].
  - intros A HA. apply Hk in HA as (s & Es). specialize (Hm A). unfold bm_mem in Hm. rewrite Es in Hm. destruct (bm_get A f); [eauto|discriminate].
  - intros A B HB. rewrite Hl by auto. now apply lasting_ext.
  - rewrite Ha. now apply vanishes_ext.
Qed.

(** the FOLLOW half *)
Definition follow_from (f : table T) (A B : T) : Prop :=
  right_corner rules B A \/
  exists C i u X v, prod_at rules C i (u ++ A :: X :: v) /\ nonterm rules A /\ nonterm rules X /\ tin f X B /\ nonterm rules B.

Lemma follow_half f : (forall A, nonterm rules A -> exists s, bm_get A f = Some s) -> exists w0, gen_follow g f = Val w0 /\ 
  (forall fuel, (exists w, transitive fuel w0 (fun t => Val (follow_step g t)) = Val w) \/ transitive fuel w0 (fun t => Val (follow_step g t)) = Fuel) /\
  ((exists fuel w, transitive fuel w0 (fun t => Val (follow_step g t)) = Val w) <-> settles (follow_from f)) /\
  (forall fuel w, transitive fuel w0 (fun t => Val (follow_step g t)) = Val w ->
     (all_terminal g w = true <-> vanishes (follow_from f)) /\
     (forall A B, nonterm rules B -> (tin w A B <-> lasting (follow_from f) A B))) /\
  (forall K, 1 <= K -> (forall A B, ~ rounds (follow_from f) K A B) -> exists w, transitive (S K) w0 (fun t => Val (follow_step g t)) = Val w) /\
  (forall fuel w, transitive fuel w0 (fun t => Val (follow_step g t)) = Val w ->
     exists m, m < fuel /\ forall A B, rounds (follow_from f) m A B <-> rounds (follow_from f) (S m) A B).
Proof.
  unfold follow_from. destruct (grammar_new_inv _ _ _ _ _ Hg) as (_ & r & p0 & ps & Hr & Hp & Hb & _).
  rewrite <- Er in *. intros Kf. destruct (gen_follow_total g f Wg NE Kf) as (w0 & F0). exists w0. split; auto.
  assert (Hst : nonterm (g_rules g) start) by (exists r; congruence).
  destruct (gen_follow_spec g start eof p0 Wg Hb Hst f _ F0) as (Hs2 & Hx2 & Hk2).
  assert (K0 : forall A s, bm_get A w0 = Some s -> nonterm (g_rules g) A).
  { intros A s Es. eapply (fkey_nonterm g start); eauto. apply Hk2. unfold bm_mem. now rewrite Es. }
  assert (HP : forall A B, ptr g w0 A B <-> right_corner (g_rules g) B A \/
    exists C i u X v, prod_at (g_rules g) C i (u ++ A :: X :: v) /\ nonterm (g_rules g) A /\ nonterm (g_rules g) X /\ tin f X B /\ nonterm (g_rules g) B).
  { intros A B. unfold ptr. rewrite Hx2. split.
    - intros [[[_ ->]|(C & i & rhs & Hpc & [(u & Y & v & -> & HA & [[HY ->]|[HY HB']])|(u & -> & HA & N & ->)])] HB]; try contradiction.
      + right. exists C, i, u, Y, v. auto.
      + left. exists i, u. auto.
    - intros [(i & u & Hpc & HA & N)|(C & i & u & X & v & Hpc & HA & HX & HB' & HB)].
      + split; [|eapply prod_nonterm; eauto]. right. exists B, i, (u ++ [A]). split; auto. right. exists u. auto.
      + split; auto. right. exists C, i, (u ++ A :: X :: v). split; auto. left. exists u, X, v. auto. }
  assert (Hf : forall n, (fun t => Val (follow_step g t)) (after g w0 n) = Val (follow_step g (after g w0 n))) by reflexivity.
  split; [intros fuel; apply (loop_fuel g w0 _ Hf fuel 0)|].
  split; [rewrite (loop_iff g w0 Hs2 K0 _ Hf); now apply settles_ext|].
  split; [|split; [intros K LK HK; apply (loop_fast g w0 Hs2 K0 _ Hf K LK); intros A B HR; apply (HK A B); now apply (rounds_ext _ _ HP)|
    intros fuel x E; destruct (loop_when g w0 Hs2 _ Hf _ _ E) as (m & Lm & HM); exists m; split; auto;
    intros A B; rewrite <- (rounds_ext _ _ HP m A B), <- (rounds_ext _ _ HP (S m) A B); apply HM]].
  intros fuel w E. destruct (loop_val g w0 Hs2 _ Hf _ _ E) as (_ & _ & Hl & Ha). split; [rewrite Ha; now apply vanishes_ext|].
  intros A B HB. rewrite Hl by auto. now apply lasting_ext.
Qed.

Lemma follow_from_lasting f : (forall A B, nonterm rules B -> (tin f A B <-> lasting L A B)) ->
  forall A B, follow_from f A B <-> follow_ptr rules A B.
Proof.
  intros Hf A B. unfold follow_from, follow_ptr.
  assert (LN : forall X B, lasting L X B -> nonterm rules B).
  { intros X B' (k & H). specialize (H k (le_n _)). revert H. apply rounds_into. now intros ? ? (i & v & _ & ? & _). }
  split; (intros [H|(C & i & u & X & v & H1 & H2 & H3 & H4)]; [now left|right; exists C, i, u, X, v]).
  - destruct H4 as [H4 HB]. repeat split; auto. now apply Hf.
  - repeat split; eauto. apply Hf; eauto.
Qed.

Lemma follow_from_vanishes f : (forall A B, nonterm rules B -> (tin f A B <-> lasting L A B)) -> vanishes L ->
  forall A B, follow_from f A B <-> right_corner rules B A.
Proof.
  intros Hf (k & V) A B. unfold follow_from. split; [|auto]. intros [H|(C & i & u & X & v & H1 & H2 & H3 & H4 & HB)]; auto.
  exfalso. apply Hf in H4 as (n & H4); auto. specialize (H4 (n + k) ltac:(lia)).
  assert (G : forall d A B, ~ rounds L (d + k) A B).
  { induction d as [|d IH]; intros A' B'; [apply V|]. cbn [Nat.add rounds]. intros [_ (D & D1 & _)]. exact (IH _ _ D1). }
  exact (G _ _ _ H4).
Qed.

(** a run of the whole, seen from what its two loops do *)
Lemma new_release : dbg = false ->
  ((exists t, tabler_makes dbg g t) <-> settles L /\ settles (follow_ptr rules)) /\
  (forall fuel, (exists t, tabler_new dbg fuel g = Val t) \/ tabler_new dbg fuel g = Fuel).
Proof.
  intros Ed. assert (DA : forall c, dassert dbg c = Val tt) by (rewrite Ed; reflexivity). destruct first_half as (f0 & E0 & P1 & Q1 & V1 & _). split; [split|].
  - intros (t & fuel & Et). unfold tabler_new in Et. rewrite E0 in Et. cbn [bind] in Et. unfold proc_first, proc_follow in Et.
    destruct (P1 fuel) as [(f & Ef)|Ef]; rewrite Ef in Et; cbn [bind] in Et; [|discriminate].
    destruct (V1 _ _ Ef) as (Kf & Lf & _). destruct (follow_half f Kf) as (w0 & F0 & P2 & Q2 & _).
    rewrite DA in Et. cbn [bind] in Et. rewrite F0 in Et. cbn [bind] in Et.
    destruct (P2 fuel) as [(w & Ew)|Ew]; rewrite Ew in Et; cbn [bind] in Et; [|discriminate].
    split; [apply Q1; eauto|]. apply (settles_ext _ _ (follow_from_lasting f Lf)). apply Q2. eauto.
  - intros [H1 H2]. apply Q1 in H1 as (n1 & f & Ef). destruct (V1 _ _ Ef) as (Kf & Lf & _).
    destruct (follow_half f Kf) as (w0 & F0 & P2 & Q2 & _). apply (settles_ext _ _ (follow_from_lasting f Lf)), Q2 in H2 as (n2 & w & Ew).
    eexists. exists (n1 + n2). unfold tabler_new. rewrite E0. cbn [bind]. unfold proc_first, proc_follow.
    rewrite (transitive_mono _ _ _ _ Ef) by lia. cbn [bind]. rewrite DA. cbn [bind]. rewrite F0. cbn [bind].
    rewrite (transitive_mono _ _ _ _ Ew) by lia. cbn [bind]. rewrite DA. reflexivity.
  - intros fuel. unfold tabler_new. rewrite E0. cbn [bind]. unfold proc_first, proc_follow.
    destruct (P1 fuel) as [(f & Ef)|Ef]; rewrite Ef; cbn [bind]; auto. destruct (V1 _ _ Ef) as (Kf & Lf & _).
    destruct (follow_half f Kf) as (w0 & F0 & P2 & Q2 & _). cbn [bind]. rewrite DA. cbn [bind]. rewrite F0. cbn [bind].
    destruct (P2 fuel) as [(w & Ew)|Ew]; rewrite Ew; cbn [bind]; auto. rewrite DA. cbn [bind]. eauto.
Qed.

Lemma new_debug : dbg = true ->
  ((exists t, tabler_makes dbg g t) <-> vanishes L /\ vanishes (right_corner rules)) /\
  ((exists fuel, tabler_new dbg fuel g = Panic P_debug_assert) <->
     (settles L /\ ~ vanishes L) \/ (vanishes L /\ settles (right_corner rules) /\ ~ vanishes (right_corner rules))) /\
  (forall fuel, (exists t, tabler_new dbg fuel g = Val t) \/ tabler_new dbg fuel g = Panic P_debug_assert \/ tabler_new dbg fuel g = Fuel) /\
  ((forall fuel, tabler_new dbg fuel g = Fuel) -> settles L -> vanishes L /\ ~ settles (right_corner rules)).
Proof.
  intros Ed. assert (DA : dassert dbg false = Panic P_debug_assert) by (rewrite Ed; reflexivity). destruct first_half as (f0 & E0 & P1 & Q1 & V1 & _).
  (* one run, described *)
  assert (D : forall fuel, 
     (tabler_new dbg fuel g = Fuel /\ transitive fuel f0 (first_step g) = Fuel) \/
     (tabler_new dbg fuel g = Panic P_debug_assert /\ settles L /\ ~ vanishes L) \/
     (settles L /\ vanishes L /\ exists f w0, transitive fuel f0 (first_step g) = Val f /\ gen_follow g f = Val w0 /\
        ((exists fuel w, transitive fuel w0 (fun t => Val (follow_step g t)) = Val w) <-> settles (right_corner rules)) /\
        ((tabler_new dbg fuel g = Fuel /\ transitive fuel w0 (fun t => Val (follow_step g t)) = Fuel) \/
         (tabler_new dbg fuel g = Panic P_debug_assert /\ settles (right_corner rules) /\ ~ vanishes (right_corner rules)) \/
         ((exists t, tabler_new dbg fuel g = Val t) /\ vanishes (right_corner rules))))).
  { intros fuel. unfold tabler_new. rewrite E0. cbn [bind]. unfold proc_first, proc_follow.
    destruct (P1 fuel) as [(f & Ef)|Ef]; rewrite Ef; cbn [bind]; auto. right.
    assert (settles L) as SL by (apply Q1; eauto). destruct (V1 _ _ Ef) as (Kf & Lf & Vf).
    destruct (all_terminal g f) eqn:Ea.
    2:{ left. rewrite DA. cbn [bind]. repeat split; auto. intros V. apply Vf in V. congruence. }
    assert (vanishes L) as VL by now apply Vf. right. split; auto. split; auto.
    destruct (follow_half f Kf) as (w0 & F0 & P2 & Q2 & V2 & _). exists f, w0. split; auto. split; auto.
    pose proof (settles_ext _ _ (follow_from_vanishes f Lf VL)) as SE. pose proof (vanishes_ext _ _ (follow_from_vanishes f Lf VL)) as VE.
    rewrite (settles_flip (right_corner rules)) in SE. rewrite (vanishes_flip (right_corner rules)) in VE. rewrite SE in Q2. split; auto.
    rewrite dassert_true. cbn [bind]. rewrite F0. cbn [bind].
    destruct (P2 fuel) as [(w & Ew)|Ew]; rewrite Ew; cbn [bind]; auto. right. pose proof (proj1 (V2 _ _ Ew)) as Vw. rewrite VE in Vw.
    assert (settles (right_corner rules)) as SR by (apply Q2; eauto).
    destruct (all_terminal g w) eqn:Ea2.
    - right. rewrite dassert_true. cbn [bind]. split; [eauto|]. now apply Vw.
    - left. rewrite DA. cbn [bind]. repeat split; auto. intros V. apply Vw in V. discriminate. }
  assert (B1 : settles L -> exists n, forall fuel, n <= fuel -> transitive fuel f0 (first_step g) <> Fuel).
  { intros H. apply Q1 in H as (n & f & Ef). exists n. intros fuel Lf. rewrite (transitive_mono _ _ _ _ Ef) by auto. discriminate. }
  assert (B2 : vanishes L -> settles (right_corner rules) -> exists n, forall fuel, n <= fuel -> tabler_new dbg fuel g <> Fuel).
  { intros V H. destruct (B1 (vanishes_settles _ V)) as (n1 & N1).
    destruct (D n1) as [[_ X]|[(_ & _ & X)|(_ & _ & f & w0 & Ef & F0 & Q & _)]]; [destruct (N1 n1 (le_n _) X)|contradiction|].
    apply Q in H as (n2 & w & Ew). exists (n1 + n2). intros fuel Lf X.
    destruct (D fuel) as [[_ Y]|[(Y & _)|(_ & _ & f' & w0' & Ef' & F0' & _ & Y)]].
    - apply (N1 fuel); auto. lia.
    - congruence.
    - rewrite (transitive_mono _ _ _ _ Ef) in Ef' by lia. injection Ef' as <-. rewrite F0 in F0'. injection F0' as <-.
      rewrite (transitive_mono _ _ _ _ Ew) in Y by lia. destruct Y as [[_ Y]|[(Y & _)|((t & Y) & _)]]; congruence. }
  split; [|split; [|split]].
  - split.
    + intros (t & fuel & Et). destruct (D fuel) as [[X _]|[(X & _)|(_ & VL & f & w0 & _ & _ & _ & [[X _]|[(X & _)|(_ & X)]])]]; try congruence. auto.
    + intros [VL VR]. destruct (B2 VL (vanishes_settles _ VR)) as (n & N).
      destruct (D n) as [[X _]|[(_ & _ & X)|(_ & _ & f & w0 & _ & _ & _ & [[X _]|[(_ & _ & X)|((t & X) & _)]])]]; try contradiction.
      * destruct (N n (le_n _) X).
      * destruct (N n (le_n _) X).
      * exists t, n. exact X.
  - split.
    + intros (fuel & E). destruct (D fuel) as [[X _]|[(_ & X)|(_ & VL & f & w0 & _ & _ & _ & [[X _]|[(_ & X)|((t & X) & _)]])]]; try congruence; auto.
    + intros [[SL NV]|(VL & SR & NV)].
      * destruct (B1 SL) as (n & N). exists n. destruct (D n) as [[_ X]|[(X & _)|(_ & X & _)]]; auto; [destruct (N n (le_n _) X)|contradiction].
      * destruct (B2 VL SR) as (n & N). exists n.
        destruct (D n) as [[X _]|[(X & _)|(_ & _ & f & w0 & _ & _ & _ & [[X _]|[(X & _)|(_ & X)]])]]; auto; try contradiction; destruct (N n (le_n _) X).
  - intros fuel. destruct (D fuel) as [[X _]|[(X & _)|(_ & VL & f & w0 & _ & _ & _ & [[X _]|[(X & _)|(X & _)]])]]; auto.
  - intros Hd SL. destruct (B1 SL) as (n & N).
    assert (vanishes L) as VL.
    { destruct (D n) as [[_ X]|[(X & _)|(_ & X & _)]]; auto; [destruct (N n (le_n _) X)|rewrite Hd in X; discriminate]. }
    split; auto. intros SR. destruct (B2 VL SR) as (m & M). exact (M m (le_n _) (Hd m)).
Qed.
(** the nonterminals that stay in the tables *)
Lemma new_tables t : tabler_makes dbg g t ->
  (forall A B, nonterm rules B -> (tin (t_first t) A B <-> lasting L A B)) /\
  (forall A B, nonterm rules B -> (tin (t_follow t) A B <-> lasting (follow_ptr rules) A B)).
Proof.
  intros (fuel & E). destruct first_half as (f0 & E0 & _ & _ & V1 & _). unfold tabler_new, proc_first, proc_follow in E. rewrite E0 in E. cbn [bind] in E.
  apply bind_val in E as (f & Ef & E). apply bind_val in Ef as (f' & H1 & Ef). apply bind_val in Ef as (u & _ & [= <-]).
  apply bind_val in E as (w0' & F0' & E). apply bind_val in E as (w & Ew & [= <-]). apply bind_val in Ew as (w' & H2 & Ew).
  apply bind_val in Ew as (u' & _ & [= <-]).
  cbn [t_first t_follow]. destruct (V1 _ _ H1) as (Kf & Lf & _). split; auto.
  destruct (follow_half _ Kf) as (w0 & F0 & _ & _ & V2 & _). 
  match goal with H : gen_follow g _ = Val _ |- _ => rewrite F0 in H; injection H as <- end.
  intros A B HB. match goal with H : transitive _ w0 _ = Val _ |- _ => rewrite (proj2 (V2 _ _ H) A B HB) end.
  apply lasting_ext. now apply follow_from_lasting.
Qed.

(** how many rounds it takes *)
Lemma new_fast K : 1 <= K -> (forall A B, ~ rounds L K A B) -> (forall A B, ~ rounds (right_corner rules) K A B) ->
  exists t, tabler_new dbg (S K) g = Val t.
Proof.
  intros LK HL HR. destruct first_half as (f0 & E0 & _ & _ & V1 & X1 & _). destruct (X1 K LK HL) as (f & Ef).
  destruct (V1 _ _ Ef) as (Kf & Lf & Vf). assert (vanishes L) as VL by (exists K; exact HL).
  pose proof (follow_from_vanishes f Lf VL) as FF.
  destruct (follow_half f Kf) as (w0 & F0 & _ & _ & V2 & X2 & _).
  assert (HF : forall A B, ~ rounds (follow_from f) K A B).
  { intros A B H. apply (HR B A). apply rounds_flip. now apply (rounds_ext _ _ FF). }
  destruct (X2 K LK HF) as (w & Ew). destruct (V2 _ _ Ew) as (Vw & _). 
  eexists. unfold tabler_new, proc_first, proc_follow. rewrite E0. cbn [bind]. rewrite Ef. cbn [bind].
  rewrite (proj2 Vf VL), dassert_true. cbn [bind]. rewrite F0. cbn [bind]. rewrite Ew. cbn [bind].
  rewrite (proj2 Vw) by (exists K; exact HF). rewrite dassert_true. reflexivity.
Qed.

(** nothing changes from a round on and nothing is left in the end, so nothing is left at that round *)
Lemma settled_empty R m : (forall A B : T, rounds R m A B <-> rounds R (S m) A B) -> vanishes R -> forall K, m <= K -> forall A B, ~ rounds R K A B.
Proof.
  intros Hm (k & Hk) K LK A B H. pose proof (rounds_from _ _ Hm) as F. 
  assert (G : forall d A B, ~ rounds R (d + k) A B).
  { induction d as [|d IH]; intros A' B'; [apply Hk|]. cbn [Nat.add rounds]. intros [_ (D & D1 & _)]. exact (IH _ _ D1). }
  apply (G K A B). apply (F (K + k) ltac:(lia)). apply (F K LK). exact H.
Qed.

Lemma new_slow K t : vanishes L -> vanishes (right_corner rules) -> tabler_new dbg (S K) g = Val t ->
  (forall A B, ~ rounds L K A B) /\ (forall A B, ~ rounds (right_corner rules) K A B).
Proof.
  intros VL VR E. destruct first_half as (f0 & E0 & _ & _ & V1 & _ & Y1). unfold tabler_new, proc_first, proc_follow in E.
  rewrite E0 in E. cbn [bind] in E. apply bind_val in E as (f & Ef & E). apply bind_val in Ef as (f' & H1 & Ef). apply bind_val in Ef as (u & _ & [= <-]).
  apply bind_val in E as (w0' & F0' & E). apply bind_val in E as (w & Ew & _). apply bind_val in Ew as (w' & Hw & _). rename f' into f.
  destruct (V1 _ _ H1) as (Kf & Lf & _). destruct (Y1 _ _ H1) as (m & Lm & Hm). split; [apply (settled_empty _ _ Hm VL); lia|].
  pose proof (follow_from_vanishes f Lf VL) as FF.
  destruct (follow_half f Kf) as (w0 & F0 & _ & _ & _ & _ & Y2). cbn [t_first t_grammar] in *. rewrite F0 in F0'. injection F0' as <-.
  destruct (Y2 _ _ Hw) as (m2 & L2 & H2).
  assert (VF : vanishes (follow_from f)).
  { destruct VR as (k & Hk). exists k. intros A B H. apply (Hk B A). apply rounds_flip. now apply (rounds_ext _ _ FF). }
  pose proof (settled_empty _ _ H2 VF K ltac:(lia)) as G. intros A B H. apply (G B A). apply (rounds_ext _ _ FF). apply rounds_flip in H. exact H.
Qed.
End New.
