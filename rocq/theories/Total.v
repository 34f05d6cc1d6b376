(** When does [Tabler::new] return? (C04, C05) *)
From Coq Require Import List Bool Arith Lia.
From Coq Require Import Relation_Operators.
From Verif Require Import BTree Model Base Spec SpecP GrammarP FirstFollow Closure Halt Interface.
Import ListNotations.

(** ** walks in an acyclic finite relation *)
Section Walk.
Context {A : Type}.
Variable R : A -> A -> Prop.

Inductive walk : nat -> A -> A -> Prop :=
| walk_one x y : R x y -> walk 1 x y
| walk_more n x y z : R x y -> walk n y z -> walk (S n) x z.

Lemma walk_app n m x y z : walk n x y -> walk m y z -> walk (n + m) x z.
Proof. induction 1; simpl; intros; econstructor; eauto. Qed.

Lemma walk_bound U : (forall x y, R x y -> In x U) -> (forall x, ~ clos_trans _ R x x) ->
  forall n x y, walk n x y -> n <= length U.
Proof.
  intros HU Hc.
  assert (G : forall n x y, walk n x y -> exists vis, length vis = n /\ NoDup vis /\ incl vis U /\
     forall v, In v vis -> v = x \/ clos_trans _ R x v).
  { induction 1 as [x y H|n x y z H _ (vis & L & D & I & V)].
    - exists [x]. repeat split; auto.
      + constructor; [intros []|constructor].
      + intros v [<-|[]]. eauto.
      + intros v [<-|[]]. auto.
    - exists (x :: vis). repeat split; [simpl; lia| | |].
      + constructor; auto. intros Hx. apply V in Hx as [E|Hx].
        * subst y. apply (Hc x). now constructor.
        * apply (Hc x). eapply t_trans; [constructor; exact H|exact Hx].
      + intros v [<-|Hv]; eauto.
      + intros v [<-|Hv]; auto. right. apply V in Hv as [->|Hv]; [now constructor|].
        eapply t_trans; [constructor; exact H|exact Hv]. }
  intros n x y Hw. destruct (G _ _ _ Hw) as (vis & <- & D & I & _). now apply NoDup_incl_length.
Qed.
End Walk.

Section Total.
Context {T : Type} {OT : Ord T}.

(** ** the fixpoint loop *)
Section Step.
Variable g : grammar T.
Notation rules := (g_rules g).
Variable R : T -> T -> Prop.
Hypothesis HU : forall x y, R x y -> In x (bm_keys rules).
Hypothesis Hc : forall x, ~ clos_trans _ R x x.

(** what is left of the pointers after [m] steps *)
Definition winv (m : nat) (tbl : table T) : Prop :=
  msorted tbl /\ (forall A s, bm_get A tbl = Some s -> nonterm rules A) /\
  forall A B, tin tbl A B -> nonterm rules B -> exists n, m < n /\ walk R n A B.

Lemma winv_step m tbl : winv m tbl -> winv (S m) (follow_step g tbl).
Proof.
  intros (Hs & Hk & Hw). split; [apply follow_step_sorted|]. split.
  - intros A s. rewrite follow_step_get by auto. destruct (bm_get A tbl) eqn:E; [|discriminate]. intros _. eauto.
  - intros A B H HB. apply tin_step in H as [_ (x & Hx & [[Ht ->]|[Hn Hx']])]; auto; [contradiction|].
    destruct (Hw _ _ Hx Hn) as (n1 & L1 & W1). destruct (Hw _ _ Hx' HB) as (n2 & L2 & W2).
    exists (n1 + n2). split; [lia|]. eapply walk_app; eauto.
Qed.

Definition termonly (tbl : table T) : Prop := forall A x, tin tbl A x -> term rules x.

Lemma winv_done m tbl : winv m tbl -> length (bm_keys rules) <= m -> termonly tbl.
Proof.
  intros (_ & _ & Hw) L A x H. destruct (nonterm_dec rules x) as [N|N]; auto. exfalso.
  destruct (Hw _ _ H N) as (n & Ln & Wn). apply (walk_bound R (bm_keys rules)) in Wn; auto. lia.
Qed.

Lemma jump_sorted input A s : sorted (jump g input A s).
Proof.
  assert (sorted (jump_set g input s)) as H.
  { unfold jump_set. refine (fold_left_ind _ (fun _ acc => sorted acc) s [] I _).
    intros done x todo acc _ Ha. destruct (is_terminal g x); [now apply bs_insert_sorted|]. 
    destruct (bm_get x input); auto. now apply bs_extend_sorted. }
  unfold jump. destruct (bs_mem A _); auto. now apply bs_remove_sorted.
Qed.

Lemma msorted_ext {V} (m1 m2 : bmap T V) : msorted m1 -> msorted m2 -> (forall k, bm_get k m1 = bm_get k m2) -> m1 = m2.
Proof.
  revert m2. induction m1 as [|[k1 v1] m1 IH]; intros [|[k2 v2] m2] S1 S2 E; auto.
  - specialize (E k2). simpl in E. rewrite eqb_refl in E. discriminate.
  - specialize (E k1). simpl in E. rewrite eqb_refl in E. discriminate.
  - destruct S1 as [L1 S1], S2 as [L2 S2].
    assert (F : forall k (m : bmap T V), (forall y, In y (map fst m) -> cmp k y = Lt) -> bm_get k m = None).
    { intros k m H. destruct (bm_get k m) as [v|] eqn:Ek; auto. apply bm_get_in in Ek. apply (in_map fst) in Ek. apply H in Ek.
      cbn [fst] in Ek. rewrite cmp_refl in Ek. discriminate. }
    assert (k1 = k2) as ->.
    { pose proof (E k1) as E1. pose proof (E k2) as E2. simpl in E1, E2. rewrite eqb_refl in E1, E2.
      destruct (eqb_spec k1 k2) as [|N]; auto. exfalso.
      destruct (eqb_spec k2 k1) as [|N']; [congruence|].
      symmetry in E1. apply bm_get_in, (in_map fst), L2 in E1. apply bm_get_in, (in_map fst), L1 in E2. cbn [fst] in *.
      pose proof (cmp_trans _ _ _ E1 E2) as X. rewrite cmp_refl in X. discriminate. }
    pose proof (E k2) as E1. simpl in E1. rewrite eqb_refl in E1. injection E1 as ->. f_equal. apply IH; auto.
    intros k. pose proof (E k) as Ek. simpl in Ek. destruct (eqb_spec k k2) as [Ekk|N]; auto. rewrite Ekk, !F; auto.
Qed.

Lemma step_fix tbl m : winv m tbl -> termonly tbl -> follow_step g (follow_step g tbl) = follow_step g tbl.
Proof.
  intros I0 Ht. pose proof (winv_step _ _ I0) as I1. destruct I1 as (Hs & Hk & _).
  apply msorted_ext; auto using follow_step_sorted. intros A. rewrite follow_step_get by auto.
  destruct (bm_get A (follow_step g tbl)) as [s|] eqn:E; auto. f_equal.
  apply sorted_ext.
  - apply jump_sorted.
  - destruct I0 as (Hs0 & _). rewrite follow_step_get in E by auto. destruct (bm_get A tbl); [|discriminate]. injection E as <-.
    apply jump_sorted.
  - assert (forall x, In x s -> term rules x) as Hts.
    { intros x Hx. assert (tin (follow_step g tbl) A x) as Hin by (exists s; auto).
      destruct I0 as (Hs0 & _). apply tin_step in Hin as [_ (y & Hy & [[Hy1 ->]|[Hn _]])]; auto.
      exfalso. exact (Ht _ _ Hy Hn). }
    intros x. rewrite jump_in. split.
    + intros [_ (y & Hy & [[_ ->]|[Hn _]])]; auto. exfalso. exact (Hts _ Hy Hn).
    + intros Hx. split.
      * intros ->. apply (Hts _ Hx). eapply Hk; eauto.
      * exists x. split; auto.
Qed.

Lemma trans_total (f : table T -> res (table T)) : (forall m tbl, winv m tbl -> f tbl = Val (follow_step g tbl)) ->
  forall tbl, winv 0 tbl -> exists fuel v, transitive fuel tbl f = Val v /\ termonly v /\ msorted v.
Proof.
  intros Hf.
  assert (G : forall n m tbl, winv m tbl -> length (bm_keys rules) <= m + n -> exists fuel v, transitive fuel tbl f = Val v).
  { induction n as [|n IH]; intros m tbl I0 L.
    - pose proof (winv_done _ _ I0 ltac:(lia)) as Ht. exists 2. cbn [transitive]. rewrite (Hf _ _ I0). cbn [bind].
      rewrite (Hf _ _ (winv_step _ _ I0)). cbn [bind]. rewrite (step_fix _ _ I0 Ht), eqb_refl. destruct (eqb _ _); eauto.
    - destruct (IH _ _ (winv_step _ _ I0) ltac:(lia)) as (fuel & v & E). exists (S fuel). cbn [transitive]. rewrite (Hf _ _ I0). cbn [bind].
      rewrite E. destruct (eqb _ _); eauto. }
  intros tbl I0. destruct (G _ _ _ I0 (le_n _)) as (fuel & v & E). exists fuel, v. split; auto.
  apply transitive_ind with (P := fun t => exists m, winv m t) in E as [(m & Iv) Ev]; eauto.
  2:{ intros a b (m & Ia). rewrite (Hf _ _ Ia). intros [= <-]. exists (S m). now apply winv_step. }
  rewrite (Hf _ _ Iv) in Ev. injection Ev as Ev. 
  assert (forall k, winv (m + k) v) as Hall.
  { induction k as [|k IHk]; [now rewrite Nat.add_0_r|]. rewrite Nat.add_succ_r, <- Ev. now apply winv_step. }
  split; [|apply Iv]. apply (winv_done _ _ (Hall (length (bm_keys rules)))). lia.
Qed.
End Step.

(** ** the initial tables *)
Lemma gen_first_total (g : grammar T) : wf_rules (g_rules g) -> noempty (g_rules g) -> exists f0, gen_first g = Val f0.
Proof.
  intros W NE. destruct (foldM_total (fun tbl r =>
    do firsts <-
      foldM (fun (acc : bset T) (rc : production T) =>
        match fst rc with
        | [] => Panic P_assert
        | x :: _ => Val (if eqb x (r_name r) then acc else bs_insert x acc)
        end) (r_prods r) [];
    Val (bm_insert (r_name r) firsts tbl)) (fun _ => True) (bm_values (g_rules g)) ([] : table T)) as (f0 & E & _); eauto.
  intros r tbl Hr _.
  destruct (foldM_total (fun (acc : bset T) (rc : production T) =>
        match fst rc with
        | [] => Panic P_assert
        | x :: _ => Val (if eqb x (r_name r) then acc else bs_insert x acc)
        end) (fun _ => True) (r_prods r) ([] : bset T)) as (fs & E & _); auto.
  - intros rc acc Hrc _. apply wf_in in Hr; auto. apply (wf_prod_in _ _ _ rc W Hr) in Hrc. apply NE in Hrc.
    destruct (fst rc); [congruence|]. eauto.
  - rewrite E. cbn [bind]. eauto.
Qed.

(** an empty production stops [Tabler::new] at its assertion, whatever the build *)
Lemma gen_first_empty (g : grammar T) : wf_rules (g_rules g) -> ~ noempty (g_rules g) -> gen_first g = Panic P_assert.
Proof.
  intros W NE.
  assert (X : (forall r rc, In r (bm_values (g_rules g)) -> In rc (r_prods r) -> fst rc <> []) -> False).
  { intros H. apply NE. intros A i rhs Hp. apply wf_prod_at in Hp as (r & Er & Hn); auto.
    assert (r_name r = A) as En by (apply W; auto). apply nth_error_In in Hn. apply (H r) in Hn; auto. apply wf_in; auto. congruence. }
  clear NE W. unfold gen_first. generalize (@nil (T * bset T)). induction (bm_values (g_rules g)) as [|r l IH]; intros tbl.
  - exfalso. apply X. intros ? ? [].
  - cbn [foldM].
    assert (Y : forall ps acc, (exists fs, foldM (fun (acc : bset T) (rc : production T) =>
        match fst rc with
        | [] => Panic P_assert
        | x :: _ => Val (if eqb x (r_name r) then acc else bs_insert x acc)
        end) ps acc = Val fs /\ forall rc, In rc ps -> fst rc <> []) \/ foldM (fun (acc : bset T) (rc : production T) =>
        match fst rc with
        | [] => Panic P_assert
        | x :: _ => Val (if eqb x (r_name r) then acc else bs_insert x acc)
        end) ps acc = Panic P_assert).
    { induction ps as [|[rhs i] ps IHp]; intros acc; cbn [foldM].
      - left. eexists. split; [reflexivity|]. intros rc [].
      - cbn [fst]. destruct rhs as [|x rhs]; [right; reflexivity|]. cbn [bind].
        destruct (IHp (if eqb x (r_name r) then acc else bs_insert x acc)) as [(fs & E & H)|E]; [left|right; exact E].
        exists fs. split; auto. intros rc [<-|Hin]; auto. simpl. discriminate. }
    destruct (Y (r_prods r) []) as [(fs & E & H)|E]; rewrite E; cbn [bind]; [|reflexivity].
    apply IH. intros H'. apply X. intros r' rc [<-|Hr]; auto. now apply H'.
Qed.

Lemma follow_pairs_total (g : grammar T) first : (forall A, nonterm (g_rules g) A -> exists s, bm_get A first = Some s) ->
  forall prod tbl, exists tbl', follow_pairs g first prod tbl = Val tbl'.
Proof.
  intros Hf. induction prod as [|x prod IH]; intros tbl; cbn [follow_pairs]; [eauto|].
  destruct prod as [|y prod]; [eauto|].
  destruct (is_terminal g x); cbn [negb bind]; [apply IH|]. destruct (is_terminal g y) eqn:Ey; cbn [bind]; [apply IH|].
  apply is_terminal_nonterm in Ey. destruct (Hf _ Ey) as (s & ->). cbn [expect bind]. apply IH.
Qed.

Lemma gen_follow_total (g : grammar T) first : wf_rules (g_rules g) -> noempty (g_rules g) ->
  (forall A, nonterm (g_rules g) A -> exists s, bm_get A first = Some s) -> exists f0, gen_follow g first = Val f0.
Proof.
  intros W NE Hf. unfold gen_follow.
  match goal with |- exists f0, foldM ?F ?l ?b = _ => destruct (foldM_total F (fun _ => True) l b) as (f0 & E & _); eauto end.
  intros r tbl Hr _.
  match goal with |- exists b2, foldM ?F ?l ?b = _ /\ _ => destruct (foldM_total F (fun _ => True) l b) as (f0 & E & _); eauto end.
  intros rc tbl1 Hrc _. apply wf_in in Hr; auto. apply (wf_prod_in _ _ _ rc W Hr) in Hrc. apply NE in Hrc.
  destruct (fst rc) as [|x rest]; [congruence|]. destruct (follow_pairs_total g first Hf (x :: rest) tbl1) as (tbl2 & ->). cbn [bind]. eauto.
Qed.

Lemma all_terminal_true (g : grammar T) tbl : msorted tbl -> termonly g tbl -> all_terminal g tbl = true.
Proof.
  intros Hs H. unfold all_terminal. apply forallb_forall. intros [A s] Hin. apply forallb_forall. intros x Hx. cbn [snd] in Hx.
  apply is_terminal_term. apply (H A). exists s. split; auto. now apply bm_in_get.
Qed.

(** ** [Tabler::new] *)
Section New.
Variables (dbg : bool) (start eof : T) (rules : rulemap T) (g : grammar T).
Hypothesis W : wf_rules rules.
Hypothesis Hg : grammar_new dbg start rules eof = Val g.
Let Er : g_rules g = rules.
Proof. exact (proj1 (grammar_new_inv _ _ _ _ _ Hg)). Qed.
Let Wg : wf_rules (g_rules g).
Proof. rewrite Er. exact W. Qed.

Lemma nonterm_key A : nonterm (g_rules g) A -> In A (bm_keys (g_rules g)).
Proof. intros (r & Hr). apply bm_get_in in Hr. apply in_map_iff. exists (A, r). auto. Qed.

Lemma clos_trans_impl {A} (R R' : A -> A -> Prop) x y : (forall x y, R x y -> R' x y) -> clos_trans _ R x y -> clos_trans _ R' x y.
Proof. intros H. induction 1; [constructor; auto|eapply t_trans; eauto]. Qed.

Lemma tabler_total : noempty rules -> term rules eof -> no_left_cycle rules -> no_right_cycle rules ->
  exists t, tabler_makes dbg g t /\ (forall A x, tin (t_first t) A x -> term rules x) /\ (forall A x, tin (t_follow t) A x -> term rules x).
Proof.
  intros NE He HL HR. rewrite <- Er in NE, He, HL, HR.
  destruct (gen_first_total g Wg NE) as (f0 & E0). pose proof (gen_first_spec g Wg _ E0) as (_ & Hs & Hk & Hx).
  set (R1 := left_corner (g_rules g)).
  assert (HU1 : forall x y, R1 x y -> In x (bm_keys (g_rules g))).
  { intros x y (i & v & Hp & _). apply nonterm_key. eapply prod_nonterm; eauto. }
  assert (Hclosed : forall m tbl, winv g R1 m tbl -> (forall A, nonterm (g_rules g) A -> exists s, bm_get A tbl = Some s) ->
     first_step g tbl = Val (follow_step g tbl)).
  { intros m tbl (Ht & _) H. apply first_step_follow_step; auto. }
  (* FIRST: carry the keys along *)
  assert (exists fuel f, transitive fuel f0 (first_step g) = Val f /\ termonly g f /\ msorted f) as (n1 & f & E1 & Tf & Sf).
  { set (f' := fun tbl => if forallb (fun e => match bm_get (fst e) tbl with Some _ => true | None => false end) (g_rules g)
        then first_step g tbl else Val (follow_step g tbl)).
    assert (Q : forall tbl, (forall A, nonterm (g_rules g) A -> exists s, bm_get A tbl = Some s) -> f' tbl = first_step g tbl).
    { intros tbl H. unfold f'. replace (forallb _ (g_rules g)) with true; auto. symmetry. apply forallb_forall. intros [A r] Hin.
      destruct (H A) as (s & Es); [|cbn [fst]; now rewrite Es]. exists r. apply bm_in_get; auto. apply Wg. }
    destruct (trans_total g R1 HU1 HL f') with (tbl := f0) as (n & v & E & Hv & Sv).
    - intros m tbl Hm. unfold f'. destruct (forallb _ (g_rules g)) eqn:Ef; auto. eapply Hclosed; eauto.
      intros A (r & Hr). apply bm_get_in in Hr. rewrite forallb_forall in Ef. apply Ef in Hr. cbn [fst] in Hr. destruct (bm_get A tbl); eauto. discriminate.
    - split; auto. split; [intros A s Es; apply Hk; eauto|]. intros A B H HB. apply Hx in H as (N & i & v & Hp). exists 1. split; auto. constructor.
      exists i, v. auto.
    - exists n, v. split; auto. rewrite <- E. clear E Hv Sv.
      assert (K : forall A, nonterm (g_rules g) A -> exists s, bm_get A f0 = Some s) by (intros A; apply Hk).
      assert (S0 : winv g R1 0 f0).
      { split; auto. split; [intros A s Es; apply Hk; eauto|]. intros A B H HB. apply Hx in H as (N & i & w & Hp). exists 1. split; auto. constructor.
        exists i, w. auto. }
      clear - K S0 Q Hclosed. revert S0. generalize 0 as m. revert f0 K. induction n as [|n IH]; intros f0 K m S0; cbn [transitive]; auto.
      rewrite (Q _ K). rewrite (Hclosed _ _ S0 K). cbn [bind]. destruct (eqb _ _); auto. eapply IH; [|apply winv_step; exact S0].
      intros A HA. destruct S0 as (Hs0 & _). rewrite follow_step_get by auto. destruct (K _ HA) as (s & ->). eauto. }
  assert (E1' : proc_first dbg n1 g f0 = Val f).
  { unfold proc_first. rewrite E1. cbn [bind]. rewrite all_terminal_true by auto. rewrite dassert_true. reflexivity. }
  pose proof (proc_first_spec g Wg _ _ _ _ E0 E1') as (_ & Hkf & _).
  destruct (gen_follow_total g f Wg NE (fun A => proj2 (Hkf A))) as (w0 & F0).
  destruct (grammar_new_inv _ _ _ _ _ Hg) as (_ & r & p0 & ps & Hr & Hp & Hb & _).
  assert (Hst : nonterm (g_rules g) start) by (exists r; congruence).
  destruct (gen_follow_spec g start eof p0 Wg Hb Hst f _ F0) as (Hs2 & Hx2 & Hk2).
  set (R2 := fun A B => right_corner (g_rules g) B A).
  assert (exists fuel v, transitive fuel w0 (fun t => Val (follow_step g t)) = Val v /\ termonly g v /\ msorted v) as (n2 & w & E2 & Tw & Sw).
  { apply (trans_total g R2).
    - intros x y (i & u & Hp2 & Hn & _). now apply nonterm_key.
    - intros x Hcx. apply (HR x). assert (forall a b, clos_trans _ R2 a b -> clos_trans _ (right_corner (g_rules g)) b a) as Hrev.
      { induction 1; [constructor; auto|eapply t_trans; eauto]. }
      auto.
    - auto.
    - split; auto. split.
      + intros A s Es. eapply (fkey_nonterm g start); eauto. apply Hk2. unfold bm_mem. now rewrite Es.
      + intros A B H HB. exists 1. split; auto. constructor. apply Hx2 in H as [[_ ->]|(C & i & rhs & Hpc & [(u & Y & v & -> & HA & [[HY ->]|[HY HB']])|(u & -> & HA & N & ->)])]; try contradiction.
        * exfalso. exact (Tf _ _ HB' HB).
        * exists i, u. auto. }
  exists (mkTabler g f w [] [] []). split; [|split].
  - exists (n1 + n2). unfold tabler_new. rewrite E0. cbn [bind]. unfold proc_first.
    rewrite (transitive_mono _ _ _ _ E1) by lia. cbn [bind]. rewrite all_terminal_true, dassert_true by auto. cbn [bind]. rewrite F0. cbn [bind].
    unfold proc_follow. rewrite (transitive_mono _ _ _ _ E2) by lia. cbn [bind]. rewrite all_terminal_true, dassert_true by auto. reflexivity.
  - cbn [t_first]. rewrite <- Er. exact Tf.
  - cbn [t_follow]. rewrite <- Er. exact Tw.
Qed.
End New.
End Total.
