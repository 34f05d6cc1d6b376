(** FIRST and FOLLOW tables (C02, C03, C05). *)
From Coq Require Import List Bool Arith Lia.
From Verif Require Import BTree Model Base Spec SpecP GrammarP.
Import ListNotations.

Section FF.
Context {T : Type} {OT : Ord T}.

(** [x] is in the set the table has for [A] *)
Definition tin (tbl : table T) (A x : T) : Prop := exists s, bm_get A tbl = Some s /\ In x s.

Lemma bm_get_app {V} (l m : bmap T V) k :
  bm_get k (l ++ m) = match bm_get k l with Some v => Some v | None => bm_get k m end.
Proof. induction l as [|[k' v] l IH]; simpl; auto. destruct (eqb k k'); auto. Qed.

Lemma msorted_app_notin {V} (l : bmap T V) k v m : msorted (l ++ (k, v) :: m) -> bm_get k l = None.
Proof.
  unfold msorted. induction l as [|[k' v'] l IH]; simpl; auto. intros [Hk Hs].
  destruct (eqb_spec k k') as [->|N]; auto.
  exfalso. specialize (Hk k'). rewrite cmp_refl in Hk. enough (Eq = Lt) by discriminate.
  apply Hk. rewrite map_app. apply in_app_iff. right. now left.
Qed.

(** ** The pointer-jumping step *)
Section Step.
Variable g : grammar T.
Notation term := (term (g_rules g)).
Notation nonterm := (nonterm (g_rules g)).

Definition jump_set (input : table T) (terms : bset T) : bset T :=
  fold_left (fun (acc : bset T) term =>
        if is_terminal g term then bs_insert term acc
        else match bm_get term input with Some s => bs_extend acc s | None => acc end)
        terms [].

Definition jump (input : table T) (A : T) (terms : bset T) : bset T :=
  let set := jump_set input terms in if bs_mem A set then bs_remove A set else set.

Lemma jump_set_in input terms y :
  In y (jump_set input terms) <->
  exists x, In x terms /\ ((term x /\ y = x) \/ (nonterm x /\ tin input x y)).
Proof.
  unfold jump_set.
  assert (G : forall acc, In y (fold_left (fun (acc : bset T) term =>
        if is_terminal g term then bs_insert term acc
        else match bm_get term input with Some s => bs_extend acc s | None => acc end) terms acc) <->
     In y acc \/ exists x, In x terms /\ ((term x /\ y = x) \/ (nonterm x /\ tin input x y))).
  { induction terms as [|x terms IH]; intros acc; simpl; [firstorder|]. rewrite IH. clear IH.
    destruct (is_terminal g x) eqn:E.
    - apply is_terminal_term in E. rewrite bs_insert_in. split.
      + intros [[->|H]|(z & H1 & H2)]; eauto 7.
      + intros [H|(z & [<-|H1] & H2)]; eauto. destruct H2 as [[_ ->]|[N _]]; auto; try contradiction.
    - apply is_terminal_nonterm in E. destruct (bm_get x input) as [s|] eqn:Es.
      + rewrite bs_extend_in. split.
        * intros [[H|H]|(z & H1 & H2)]; eauto. right. exists x. split; auto. right. split; auto. exists s. auto.
        * intros [H|(z & [<-|H1] & H2)]; eauto. destruct H2 as [[N _]|[_ (s' & Es' & H)]]; [contradiction|].
          rewrite Es in Es'. injection Es' as <-. auto.
      + split.
        * intros [H|(z & H1 & H2)]; eauto.
        * intros [H|(z & [<-|H1] & H2)]; eauto. destruct H2 as [[N _]|[_ (s' & Es' & H)]]; [contradiction|congruence]. }
  rewrite G. simpl. tauto.
Qed.

Lemma jump_in input A terms y :
  In y (jump input A terms) <->
  y <> A /\ exists x, In x terms /\ ((term x /\ y = x) \/ (nonterm x /\ tin input x y)).
Proof.
  unfold jump. rewrite <- jump_set_in. destruct (bs_mem A (jump_set input terms)) eqn:E.
  - rewrite bs_remove_in. tauto.
  - split; [|tauto]. intros H. split; auto. intros ->. apply bs_mem_spec in H. congruence.
Qed.

Lemma follow_step_get input A : msorted input ->
  bm_get A (follow_step g input) = match bm_get A input with Some s => Some (jump input A s) | None => None end.
Proof.
  intros Hs. unfold follow_step.
  match goal with |- context [fold_left ?F input []] => set (f := F) end.
  refine (fold_left_ind f (fun done tbl => bm_get A tbl = match bm_get A done with Some s => Some (jump input A s) | None => None end) input [] _ _).
  - reflexivity.
  - intros done [k s] todo tbl E IH. subst f. cbv beta iota. rewrite bm_get_insert, bm_get_app. simpl.
    rewrite E in Hs. pose proof (msorted_app_notin _ _ _ _ Hs) as Hn.
    destruct (eqb_spec A k) as [->|N].
    + rewrite Hn. reflexivity.
    + rewrite IH. now destruct (bm_get A done).
Qed.

Lemma follow_step_sorted input : msorted (follow_step g input).
Proof.
  unfold follow_step. match goal with |- context [fold_left ?F input []] => set (f := F) end.
  refine (fold_left_ind f (fun _ tbl => msorted tbl) input [] _ _); [exact I|].
  intros done [k s] todo tbl E IH. subst f. cbv beta iota. now apply bm_insert_sorted.
Qed.

(** [first_step] is the same function, where it does not panic *)
Lemma first_step_follow_step input :
  (forall A x, tin input A x -> nonterm x -> exists s, bm_get x input = Some s) -> msorted input ->
  first_step g input = Val (follow_step g input).
Proof.
  intros Hc Hs. unfold first_step, follow_step. rewrite <- foldM_Val. apply foldM_ext.
  intros tbl [k s] Hin.
  assert (forall x, In x s -> nonterm x -> exists s', bm_get x input = Some s') as Hc'.
  { intros x Hx. apply (Hc k). exists s. split; auto. now apply bm_in_get. }
  assert (G : forall l acc, incl l s ->
     foldM (fun (acc : bset T) first =>
        if is_terminal g first then Val (bs_insert first acc)
        else do s <- expect P_unlisted (bm_get first input); Val (bs_extend acc s)) l acc =
     Val (fold_left (fun (acc : bset T) term =>
        if is_terminal g term then bs_insert term acc
        else match bm_get term input with Some s => bs_extend acc s | None => acc end) l acc)).
  { induction l as [|x l IH]; intros acc Hl; simpl; auto.
    destruct (is_terminal g x) eqn:E; simpl.
    - apply IH. intros y Hy. apply Hl. now right.
    - destruct (Hc' x) as (s' & ->); [apply Hl; now left|now apply is_terminal_nonterm|]. simpl.
      apply IH. intros y Hy. apply Hl. now right. }
  rewrite G by (intros ? ?; auto). reflexivity.
Qed.

(** terminals reachable in the table graph, with path length *)
Inductive reach (tbl : table T) : nat -> T -> T -> Prop :=
| reach_1 A t : tin tbl A t -> term t -> reach tbl 1 A t
| reach_S n A B t : tin tbl A B -> nonterm B -> reach tbl n B t -> reach tbl (S n) A t.

Lemma reach_pos tbl n A t : reach tbl n A t -> 0 < n.
Proof. destruct 1; lia. Qed.

Lemma reach_term tbl n A t : reach tbl n A t -> term t.
Proof. induction 1; auto. Qed.

Lemma tin_step input A y : msorted input -> 
  tin (follow_step g input) A y <->
  y <> A /\ exists x, tin input A x /\ ((term x /\ y = x) \/ (nonterm x /\ tin input x y)).
Proof.
  intros Hs. unfold tin at 1. rewrite follow_step_get by auto. destruct (bm_get A input) as [s|] eqn:E.
  - split.
    + intros (s' & [= <-] & H). apply jump_in in H as [N (x & Hx & H)]. split; auto. exists x. split; auto.
      exists s. auto.
    + intros [N (x & (s' & E' & Hx) & H)]. rewrite E in E'. injection E' as <-.
      eexists. split; [reflexivity|]. apply jump_in. eauto.
  - split; [intros (s & [=] & _)|]. intros [_ (x & (s & E' & _) & _)]. congruence.
Qed.

Lemma reach_step_back input n A t : msorted input ->
  reach (follow_step g input) n A t -> exists m, reach input m A t.
Proof.
  intros Hs. induction 1 as [A t Ht Htt|n A B t Ht Hn _ (m & IH)].
  - apply tin_step in Ht as [_ (x & Hx & [[_ ->]|[Hxn Hxt]])]; auto.
    + exists 1. now constructor.
    + exists 2. econstructor; eauto. now constructor.
  - apply tin_step in Ht as [_ (x & Hx & [[Hxt ->]|[Hxn Hxt]])]; auto.
    + contradiction.
    + exists (S (S m)). econstructor; eauto. econstructor; eauto.
Qed.

Lemma reach_step input n A t : msorted input -> nonterm A ->
  reach input n A t -> exists m, reach (follow_step g input) m A t.
Proof.
  intros Hs. revert A. induction n as [n IH] using lt_wf_ind. intros A HA H.
  assert (forall t, term t -> t <> A) as Hne by (intros t' Ht' ->; contradiction).
  inversion H as [A' t' Ht Htt|m A' B t' HB HBn Hr]; subst.
  - exists 1. constructor; auto. apply tin_step; auto. split; auto. exists t. auto.
  - inversion Hr as [B' t' Ht Htt|k B' C t' HC HCn Hr']; subst.
    + exists 1. constructor; auto. apply tin_step; auto. split; auto. exists B. auto.
    + destruct (IH k) with (A := C) as (j & Hj); auto.
      destruct (ord_dec C A) as [->|N]; eauto.
      exists (S j). econstructor; eauto. apply tin_step; auto. split; auto. exists B. auto.
Qed.

(** at a fixpoint reachable terminals are in the table *)
Lemma reach_fix tbl n A t : msorted tbl -> follow_step g tbl = tbl -> 
  (forall A s, bm_get A tbl = Some s -> nonterm A) -> reach tbl n A t -> tin tbl A t.
Proof.
  intros Hs Hf Hk. induction 1 as [|n A B t HB HBn Hr IH]; auto.
  rewrite <- Hf. apply tin_step; auto. split.
  - intros ->. destruct HB as (s & E & _). apply Hk in E. now apply reach_term in Hr.
  - exists B. auto.
Qed.

(** the table invariant carried through [transitive] *)
Definition tinv (tbl0 tbl : table T) : Prop :=
  msorted tbl /\
  (forall A, bm_mem A tbl = bm_mem A tbl0) /\
  (forall A t, nonterm A -> (exists n, reach tbl n A t) <-> (exists n, reach tbl0 n A t)) /\
  (forall A x, tin tbl A x -> exists B, tin tbl0 B x).

Lemma tinv_refl tbl : msorted tbl -> tinv tbl tbl.
Proof. intros Hs. repeat split; auto; try apply iff_refl. eauto. Qed.

Lemma tinv_step tbl0 tbl : tinv tbl0 tbl -> tinv tbl0 (follow_step g tbl).
Proof.
  intros (Hs & Hk & Hr & Hx). repeat split.
  - apply follow_step_sorted.
  - intros A. rewrite <- Hk. unfold bm_mem. rewrite follow_step_get by auto. now destruct (bm_get A tbl).
  - intros (n & H'). apply reach_step_back in H'; auto. now apply Hr.
  - intros H'. apply Hr in H' as (n & H'); auto. eapply reach_step; eauto.
  - intros A x Hin. apply tin_step in Hin as [_ (y & Hy & [[_ ->]|[_ Hy']])]; eauto.
Qed.

Lemma follow_fix fuel tbl0 f : msorted tbl0 ->
  transitive fuel tbl0 (fun t => Val (follow_step g t)) = Val f ->
  tinv tbl0 f /\ follow_step g f = f.
Proof.
  intros Hs E. apply transitive_ind with (P := tinv tbl0) in E as [H1 H2].
  - split; auto; try congruence.
  - now apply tinv_refl.
  - intros a b Ha [= <-]. now apply tinv_step.
Qed.

Lemma first_fix fuel tbl0 f : msorted tbl0 ->
  (forall A x, tin tbl0 A x -> nonterm x -> exists s, bm_get x tbl0 = Some s) ->
  transitive fuel tbl0 (first_step g) = Val f ->
  tinv tbl0 f /\ follow_step g f = f.
Proof.
  intros Hs Hc E. 
  assert (Hc' : forall tbl, tinv tbl0 tbl -> first_step g tbl = Val (follow_step g tbl)).
  { intros tbl (Ht & Hk & Hr & Hx). apply first_step_follow_step; auto.
    intros A x Hin Hn. apply Hx in Hin as (B & Hin). apply Hc in Hin as (s & Es); auto.
    specialize (Hk x). unfold bm_mem in Hk. rewrite Es in Hk. destruct (bm_get x tbl); eauto; discriminate. }
  apply transitive_ind with (P := tinv tbl0) in E as [H1 H2].
  - split; auto. rewrite Hc' in H2 by auto; try congruence.
  - now apply tinv_refl.
  - intros a b Ha. rewrite Hc' by auto. intros [= <-]. now apply tinv_step.
Qed.
End Step.

(** ** The initial FIRST table *)
Section First.
Variable g : grammar T.
Hypothesis W : wf_rules (g_rules g).
Notation rules := (g_rules g).

Lemma gen_first_inner (r : rule T) prods acc0 firsts :
  foldM (fun (acc : bset T) (rc : production T) =>
        match fst rc with
        | [] => Panic P_assert
        | x :: _ => Val (if eqb x (r_name r) then acc else bs_insert x acc)
        end) prods acc0 = Val firsts ->
  (forall rc, In rc prods -> fst rc <> []) /\
  (forall x, In x firsts <-> In x acc0 \/ (x <> r_name r /\ exists v i, In (x :: v, i) prods)).
Proof.
  revert acc0. induction prods as [|[rhs i] prods IH]; intros acc0 E; simpl in E.
  - injection E as <-. split; [intros ? []|]. firstorder.
  - destruct rhs as [|y rhs]; [discriminate|]. simpl in E. apply IH in E as [H1 H2]. split.
    + intros rc [<-|Hin]; auto. discriminate.
    + intros x. rewrite H2. clear H2 IH H1. destruct (eqb_spec y (r_name r)) as [E|N].
      * split.
        -- intros [H|(N & v & j & H)]; auto. right. split; auto. exists v, j. now right.
        -- intros [H|(N & v & j & [H|H])]; eauto 7. congruence.
      * rewrite bs_insert_in. split.
        -- intros [[->|H]|(N' & v & j & H)]; auto.
           ++ right. split; auto. exists rhs, i. now left.
           ++ right. split; auto. exists v, j. now right.
        -- intros [H|(N' & v & j & [H|H])]; eauto 7. injection H as -> -> ->. auto.
Qed.

Lemma gen_first_spec f0 : gen_first g = Val f0 ->
  noempty rules /\ msorted f0 /\
  (forall A, (exists s, bm_get A f0 = Some s) <-> nonterm rules A) /\
  (forall A x, tin f0 A x <-> x <> A /\ exists i v, prod_at rules A i (x :: v)).
Proof.
  unfold gen_first. intros E.
  pose (P := fun (done : list (rule T)) (tbl : table T) =>
     msorted tbl /\ (forall r rc, In r done -> In rc (r_prods r) -> fst rc <> []) /\
     (forall A, (exists s, bm_get A tbl = Some s) <-> exists r, In r done /\ r_name r = A) /\
     (forall A s, bm_get A tbl = Some s -> exists r, In r done /\ r_name r = A /\ 
        forall x, In x s <-> (x <> A /\ exists v i, In (x :: v, i) (r_prods r)))).
  assert (P (bm_values rules) f0) as (Hs & Hne & Hk & Hv).
  { eapply (foldM_ind _ P); [| |exact E].
    - split; [exact I|]. split; [intros ? ? []|]. split.
      + intros A. split; [intros (s & [=])|intros (r & [] & _)].
      + intros A s [=].
    - intros done r todo b1 b2 Ed (Hs & Hne & Hk & Hv) Hstep. inv_bind Hstep. injection H0 as <-.
      apply gen_first_inner in H as [Hn Hx]. simpl in Hx. repeat split.
      + now apply bm_insert_sorted.
      + intros r' rc Hin. apply in_app_iff in Hin as [Hin|[<-|[]]]; eauto.
      + intros (s & Es). rewrite bm_get_insert in Es. destruct (eqb_spec A (r_name r)) as [->|N].
        * exists r. split; auto. apply in_app_iff. right. now left.
        * destruct (proj1 (Hk A)) as (r' & H1 & H2); [eauto|]. exists r'. split; auto. apply in_app_iff; auto.
      + intros (r' & Hin & <-). rewrite bm_get_insert. destruct (eqb_spec (r_name r') (r_name r)) as [E'|N]; eauto.
        apply Hk. exists r'. split; auto. apply in_app_iff in Hin as [Hin|[<-|[]]]; auto; try congruence.
      + intros A s Es. rewrite bm_get_insert in Es. destruct (eqb_spec A (r_name r)) as [->|N].
        * injection Es as <-. exists r. split; [apply in_app_iff; right; now left|]. split; auto.
          intros x. rewrite Hx. tauto.
        * destruct (Hv _ _ Es) as (r' & H1 & H2 & H3). exists r'. split; auto. apply in_app_iff; auto. }
  clear E P. repeat split; auto.
  - intros A i rhs Hp. apply wf_prod_at in Hp as (r & Er & Hn); auto.
    assert (r_name r = A) as En by (apply W; auto).
    apply nth_error_In in Hn. eapply Hne in Hn; eauto. apply wf_in; auto. now rewrite En.
  - intros H. apply Hk in H as (r & Hin & <-). apply wf_in in Hin; auto. now exists r.
  - intros (r & Er). apply Hk. exists r. assert (r_name r = A) as En by (apply W; auto). 
    split; auto. apply wf_in; auto. now rewrite En.
  - destruct H as (s & Es & Hin). destruct (Hv _ _ Es) as (r & H1 & H2 & H3). apply H3 in Hin. tauto.
  - destruct H as (s & Es & Hin). destruct (Hv _ _ Es) as (r & H1 & H2 & H3). apply H3 in Hin; destruct Hin as (Nx & v & i & Hin).
    apply wf_in in H1; auto. rewrite H2 in H1. apply (wf_prod_in rules A r (x :: v, i)) in Hin; auto.
    simpl in Hin. eauto.
  - intros (N & i & v & Hp). apply wf_prod_at in Hp as (r & Er & Hn); auto.
    assert (r_name r = A) as En by (apply W; auto).
    destruct (proj2 (Hk A)) as (s & Es). { exists r. split; auto. apply wf_in; auto. now rewrite En. }
    exists s. split; auto. destruct (Hv _ _ Es) as (r' & H1 & H2 & H3). apply H3. split; auto.
    apply wf_in in H1; auto. rewrite H2, Er in H1. injection H1 as <-. exists v, i. eapply nth_error_In; eauto.
Qed.

Lemma first_reach f0 A t : gen_first g = Val f0 -> nonterm rules A ->
  (exists n, reach g f0 n A t) <-> term rules t /\ lcorner rules A t.
Proof.
  intros E HA. apply gen_first_spec in E as (NE & Hs & Hk & Hx). split.
  - intros (n & H). split; [eapply reach_term; eauto|].
    clear HA. induction H as [A t H _|n A B t H _ _ IH].
    + apply Hx in H as (_ & i & v & Hp). econstructor; eauto. constructor.
    + apply Hx in H as (_ & i & v & Hp). econstructor; eauto.
  - intros (Ht & L). revert HA. induction L as [X|A i x v t Hp L IH]; intros HA; [contradiction|].
    destruct (nonterm_dec rules x) as [N|N].
    + destruct (IH Ht N) as (n & Hn). destruct (ord_dec x A) as [->|Nx]; eauto.
      exists (S n). econstructor; eauto. apply Hx. eauto.
    + exists 1. inversion L as [|x' i' y v' t' Hp' L']; subst.
      * constructor; auto. apply Hx. split; eauto. intros ->. contradiction.
      * apply prod_nonterm in Hp'. contradiction.
Qed.

(** C02: the terminal part of FIRST is exact *)
Lemma proc_first_spec dbg fuel f0 f : gen_first g = Val f0 -> proc_first dbg fuel g f0 = Val f ->
  msorted f /\ (forall A, (exists s, bm_get A f = Some s) <-> nonterm rules A) /\
  (forall A t, nonterm rules A -> term rules t -> (tin f A t <-> first_spec rules A t)) /\
  (dbg = true -> forall A t, tin f A t -> term rules t) /\
  (forall A x, tin f A x -> exists B i v, prod_at rules B i (x :: v)).
Proof.
  intros E0 E. unfold proc_first in E. inv_bind E. inv_bind H0. injection H2 as <-.
  pose proof (gen_first_spec _ E0) as (NE & Hs & Hk & Hx).
  apply first_fix in H as [(Hs' & Hk' & Hr & Hx') Hfix]; auto.
  2:{ intros A x _ Hn. now apply Hk. }
  assert (Hkeys : forall A, (exists s, bm_get A a = Some s) <-> nonterm rules A).
  { intros A. rewrite <- Hk. specialize (Hk' A). unfold bm_mem in Hk'.
    destruct (bm_get A a), (bm_get A f0); try discriminate; split; intros (? & ?); eauto; discriminate. }
  split; auto. split; auto. split; [|split].
  - intros A t HA Ht. rewrite first_lcorner by auto. 
    pose proof (first_reach _ _ t E0 HA) as Hfr. rewrite <- Hr in Hfr by auto. split.
    + intros Hin. apply Hfr. exists 1. now constructor.
    + intros Hl. apply Hfr in Hl as (n & Hn). eapply reach_fix; eauto. intros B s Es. apply Hkeys. eauto.
  - intros Hd A t (s & Es & Hin). eapply dassert_val in H1; auto. unfold all_terminal in H1.
    rewrite forallb_forall in H1. apply bm_get_in in Es. specialize (H1 _ Es).
    rewrite forallb_forall in H1. apply is_terminal_term. now apply H1.
  - intros A x Hin. apply Hx' in Hin as (B & Hin). apply Hx in Hin as (_ & i & v & Hp). eauto.
Qed.
End First.

(** ** The initial FOLLOW table *)
Section Follow.
Variable g : grammar T.
Variables (start eof : T) (p0 : production T).
Hypothesis W : wf_rules (g_rules g).
Hypothesis Hbasis : g_basis g = mkPos start p0 0 [eof].
Hypothesis Hstart : nonterm (g_rules g) start.
Notation rules := (g_rules g).
Variable first : table T.
Hypothesis Hfirst : forall A, (exists s, bm_get A first = Some s) <-> nonterm rules A.

Lemma entry_upd_tin k f (tbl : table T) A x : 
  tin (entry_upd k f tbl) A x <->
  if eqb A k then In x (f (match bm_get k tbl with Some s => s | None => [] end)) else tin tbl A x.
Proof.
  unfold tin, entry_upd. rewrite bm_get_insert. destruct (eqb_spec A k) as [->|N]; [|reflexivity].
  split; [intros (s & [= <-] & H); auto|eauto].
Qed.

Lemma tin_default k (tbl : table T) x : In x (match bm_get k tbl with Some s => s | None => [] end) <-> tin tbl k x.
Proof.
  unfold tin. destruct (bm_get k tbl) as [s|]; split.
  - intros H. exists s. auto.
  - intros (s' & E & H). congruence.
  - intros H. destruct H.
  - intros (s' & E & _). discriminate.
Qed.

(** an adjacent pair [A Y] contributes [x] *)
Definition pair_edge (prod : list T) (A x : T) : Prop :=
  exists u Y v, prod = u ++ A :: Y :: v /\ nonterm rules A /\
    ((term rules Y /\ x = Y) \/ (nonterm rules Y /\ tin first Y x)).
Definition last_edge (B : T) (prod : list T) (A x : T) : Prop :=
  exists u, prod = u ++ [A] /\ nonterm rules A /\ A <> B /\ x = B.

(** key present because of an adjacent pair *)
Definition pair_key (prod : list T) (A : T) : Prop :=
  exists u Y v, prod = u ++ A :: Y :: v /\ nonterm rules A.
Definition last_key (B : T) (prod : list T) (A : T) : Prop :=
  exists u, prod = u ++ [A] /\ nonterm rules A /\ A <> B.

Lemma mem_entry_upd k f (tbl : table T) A : bm_mem A (entry_upd k f tbl) = true <-> A = k \/ bm_mem A tbl = true.
Proof.
  unfold entry_upd, bm_mem. rewrite bm_get_insert. destruct (eqb_spec A k) as [->|N]; [tauto|].
  firstorder congruence.
Qed.

Lemma follow_pairs_spec prod tbl tbl' : follow_pairs g first prod tbl = Val tbl' ->
  msorted tbl ->
  msorted tbl' /\
  (forall A x, tin tbl' A x <-> tin tbl A x \/ pair_edge prod A x) /\
  (forall A, bm_mem A tbl' = true <-> bm_mem A tbl = true \/ pair_key prod A).
Proof.
  revert tbl. induction prod as [|a prod IH]; intros tbl E Hs.
  - injection E as <-. split; auto. split.
    + intros A x. split; auto. intros [H|([|? ?] & ? & ? & [=] & _)]; auto.
    + intros A. split; auto. intros [H|([|? ?] & ? & ? & [=] & _)]; auto.
  - destruct prod as [|y v].
    { injection E as <-. split; auto. split.
      - intros A x. split; auto. intros [H|([|? [|? ?]] & ? & ? & [=] & _)]; auto.
      - intros A. split; auto. intros [H|([|? [|? ?]] & ? & ? & [=] & _)]; auto. }
    change (follow_pairs g first (a :: y :: v) tbl) with 
      (do tbl' <-
        (if negb (is_terminal g a) then
           if is_terminal g y then Val (entry_upd a (bs_insert y) tbl)
           else do fs <- expect P_index (bm_get y first); Val (entry_upd a (fun s => bs_extend s fs) tbl)
         else Val tbl);
      follow_pairs g first (y :: v) tbl') in E.
    inv_bind E. rename a0 into tbl1.
    assert (msorted tbl1 /\ (forall A x, tin tbl1 A x <-> tin tbl A x \/ 
        (A = a /\ nonterm rules A /\ ((term rules y /\ x = y) \/ (nonterm rules y /\ tin first y x)))) /\
        (forall A, bm_mem A tbl1 = true <-> bm_mem A tbl = true \/ (A = a /\ nonterm rules A))) as (Hs1 & H1 & K1).
    { clear H0 IH. destruct (is_terminal g a) eqn:Ea; simpl in H.
      - injection H as <-. apply is_terminal_term in Ea. split; auto. split.
        + intros A x. split; auto. intros [H|(-> & N & _)]; auto; try contradiction.
        + intros A. split; auto. intros [H|(-> & N)]; auto; try contradiction.
      - apply is_terminal_nonterm in Ea. destruct (is_terminal g y) eqn:Ey.
        + injection H as <-. apply is_terminal_term in Ey. split; [now apply bm_insert_sorted|]. split.
          * intros A x. rewrite entry_upd_tin. destruct (eqb_spec A a) as [->|N].
            -- rewrite bs_insert_in, tin_default. split.
               ++ intros [->|H]; auto. right. auto.
               ++ intros [H|(_ & _ & [[_ ->]|[N _]])]; auto; try contradiction.
            -- split; auto. intros [H|(-> & _)]; auto; try congruence.
          * intros A. rewrite mem_entry_upd. split; [intros [->|H]; auto|]. intros [H|[-> _]]; auto.
        + apply is_terminal_nonterm in Ey. inv_bind H. apply expect_val in H0. injection H1 as <-. 
          split; [now apply bm_insert_sorted|]. split.
          * intros A x. rewrite entry_upd_tin. destruct (eqb_spec A a) as [->|N].
            -- rewrite bs_extend_in, tin_default. split.
               ++ intros [H|H]; auto. right. split; auto. split; auto. right. split; auto. exists a0. auto.
               ++ intros [H|(_ & _ & [[N _]|[_ (s & Es & H)]])]; auto; [contradiction|].
                  rewrite H0 in Es. injection Es as <-. auto.
            -- split; auto. intros [H|(-> & _)]; auto; try congruence.
          * intros A. rewrite mem_entry_upd. split; [intros [->|H]; auto|]. intros [H|[-> _]]; auto. }
    destruct (IH tbl1 H0 Hs1) as (Hs2 & H2 & K2). split; auto. split.
    + intros A x. rewrite H2, H1. split.
      * intros [[H'|(-> & N & H')]|(u & Y & w & E' & N & H')]; auto.
        -- right. exists [], y, v. auto.
        -- right. exists (a :: u), Y, w. rewrite E'. auto.
      * intros [H'|([|b u] & Y & w & E' & N & H')]; auto.
        -- injection E' as -> -> ->. left. right. auto.
        -- injection E' as -> E'. right. exists u, Y, w. auto.
    + intros A. rewrite K2, K1. split.
      * intros [[H'|(-> & N)]|(u & Y & w & E' & N)]; auto.
        -- right. exists [], y, v. auto.
        -- right. exists (a :: u), Y, w. rewrite E'. auto.
      * intros [H'|([|b u] & Y & w & E' & N)]; auto.
        -- injection E' as -> -> ->. left. right. auto.
        -- injection E' as -> E'. right. exists u, Y, w. auto.
Qed.

Lemma last_default (x y : T) l z : last (z :: l) x = last (z :: l) y.
Proof. revert z. induction l as [|a l IH]; intros z; auto. simpl in *. apply (IH a). Qed.

Lemma last_snoc (x : T) rest : exists u, x :: rest = u ++ [last rest x].
Proof.
  revert x. induction rest as [|y rest IH]; intros x; simpl.
  - exists []. reflexivity.
  - destruct (IH y) as (u & E). exists (x :: u). simpl. f_equal. rewrite E. do 2 f_equal.
    destruct rest; auto. apply last_default.
Qed.

(** the FOLLOW graph edges *)
Definition edge (A x : T) : Prop :=
  (A = start /\ x = eof) \/
  exists B i rhs, prod_at rules B i rhs /\ (pair_edge rhs A x \/ last_edge B rhs A x).
Definition fkey (A : T) : Prop :=
  A = start \/ exists B i rhs, prod_at rules B i rhs /\ (pair_key rhs A \/ last_key B rhs A).

Lemma gen_follow_one (r : rule T) prods tbl tbl' :
  foldM (fun tbl (rc : production T) =>
      match fst rc with
      | [] => Panic P_underflow
      | x :: rest =>
          do tbl' <- follow_pairs g first (fst rc) tbl;
          let lst := last rest x in
          Val (if negb (is_terminal g lst) && negb (eqb lst (r_name r))
               then entry_upd lst (bs_insert (r_name r)) tbl' else tbl')
      end) prods tbl = Val tbl' -> msorted tbl ->
  msorted tbl' /\
  (forall A x, tin tbl' A x <-> tin tbl A x \/ exists rc, In rc prods /\ (pair_edge (fst rc) A x \/ last_edge (r_name r) (fst rc) A x)) /\
  (forall A, bm_mem A tbl' = true <-> bm_mem A tbl = true \/ exists rc, In rc prods /\ (pair_key (fst rc) A \/ last_key (r_name r) (fst rc) A)).
Proof.
  revert tbl. induction prods as [|[rhs i] prods IH]; intros tbl E Hs; simpl in E.
  - injection E as <-. split; auto. split; [intros A x|intros A]; (split; auto; intros [H|(? & [] & _)]; auto).
  - destruct rhs as [|a rest]; [discriminate|]. inv_bind E. inv_bind H. injection H2 as <-.
    apply follow_pairs_spec in H1 as (Hs1 & H1 & K1); auto.
    set (lst := last rest a) in *.
    set (tbl2 := if _ && _ then _ else _) in H0.
    destruct (last_snoc a rest) as (u & Eu). fold lst in Eu.
    assert (msorted tbl2 /\ (forall A x, tin tbl2 A x <-> tin a1 A x \/ last_edge (r_name r) (a :: rest) A x) /\
      (forall A, bm_mem A tbl2 = true <-> bm_mem A a1 = true \/ last_key (r_name r) (a :: rest) A)) as (Hs2 & H2 & K2).
    { assert (forall A u', a :: rest = u' ++ [A] -> A = lst) as Hl.
      { intros A u' E'. rewrite Eu in E'. apply app_inj_tail in E' as [_ <-]. reflexivity. }
      subst tbl2. destruct (is_terminal g lst) eqn:Et; simpl.
      - apply is_terminal_term in Et. split; auto. split.
        + intros A x. split; auto. intros [H|(u' & E' & N & _)]; auto. apply Hl in E'. subst A. contradiction.
        + intros A. split; auto. intros [H|(u' & E' & N & _)]; auto. apply Hl in E'. subst A. contradiction.
      - apply is_terminal_nonterm in Et. destruct (eqb_spec lst (r_name r)) as [En|Nn]; simpl.
        + split; auto. split.
          * intros A x. split; auto. intros [H|(u' & E' & N & N' & _)]; auto. apply Hl in E'. congruence.
          * intros A. split; auto. intros [H|(u' & E' & N & N')]; auto. apply Hl in E'. congruence.
        + split; [now apply bm_insert_sorted|]. split.
          * intros A x. rewrite entry_upd_tin. destruct (eqb_spec A lst) as [->|N].
            -- rewrite bs_insert_in, tin_default. split.
               ++ intros [->|H]; auto. right. exists u. auto.
               ++ intros [H|(u' & E' & _ & _ & ->)]; auto.
            -- split; auto. intros [H|(u' & E' & _)]; auto. apply Hl in E'. congruence.
          * intros A. rewrite mem_entry_upd. split.
            -- intros [->|H]; auto. right. exists u. auto.
            -- intros [H|(u' & E' & _)]; auto. left. eapply Hl; eauto. }
    apply IH in H0 as (Hs3 & H3 & K3); auto. split; auto. split.
    + intros A x. rewrite H3, H2, H1. split.
      * intros [[[H|H]|H]|(rc & Hin & H)]; auto; right.
        -- exists (a :: rest, i). split; [now left|]. auto.
        -- exists (a :: rest, i). split; [now left|]. auto.
        -- exists rc. split; [now right|auto].
      * intros [H|(rc & [<-|Hin] & H)]; auto.
        -- destruct H; auto.
        -- right. eauto.
    + intros A. rewrite K3, K2, K1. split.
      * intros [[[H|H]|H]|(rc & Hin & H)]; auto; right.
        -- exists (a :: rest, i). split; [now left|]. auto.
        -- exists (a :: rest, i). split; [now left|]. auto.
        -- exists rc. split; [now right|auto].
      * intros [H|(rc & [<-|Hin] & H)]; auto.
        -- destruct H; auto.
        -- right. eauto.
Qed.

Lemma gen_follow_spec tbl : gen_follow g first = Val tbl ->
  msorted tbl /\ (forall A x, tin tbl A x <-> edge A x) /\ (forall A, bm_mem A tbl = true <-> fkey A).
Proof.
  unfold gen_follow. intros E.
  pose (P := fun (done : list (rule T)) (tbl : table T) =>
     msorted tbl /\
     (forall A x, tin tbl A x <-> (A = start /\ x = eof) \/ exists r rc, In r done /\ In rc (r_prods r) /\ 
          (pair_edge (fst rc) A x \/ last_edge (r_name r) (fst rc) A x)) /\
     (forall A, bm_mem A tbl = true <-> A = start \/ exists r rc, In r done /\ In rc (r_prods r) /\ 
          (pair_key (fst rc) A \/ last_key (r_name r) (fst rc) A))).
  assert (P (bm_values rules) tbl) as (Hs & Hx & Hk).
  { eapply (foldM_ind _ P); [| |exact E].
    - rewrite Hbasis. simpl. split; [split; [intros ? []|exact I]|]. split.
      + intros A x. unfold tin. simpl. destruct (eqb_spec A start) as [->|N]; split.
        * intros (s & [= <-] & [<-|[]]). auto.
        * intros [[_ ->]|(? & ? & [] & _)]. eexists. split; eauto. now left.
        * intros (s & [=] & _).
        * intros [[-> _]|(? & ? & [] & _)]; try congruence.
      + intros A. unfold bm_mem. simpl. destruct (eqb_spec A start) as [->|N]; split; auto; try discriminate.
        intros [->|(? & ? & [] & _)]; try congruence.
    - intros done r todo b1 b2 Ed (Hs & Hx & Hk) Hstep. apply gen_follow_one in Hstep as (Hs2 & H2 & K2); auto.
      split; auto. split.
      + intros A x. rewrite H2, Hx. split.
        * intros [[H|(r' & rc & H1 & H3)]|(rc & H1 & H3)]; auto; right.
          -- exists r', rc. split; auto. apply in_app_iff; auto.
          -- exists r, rc. split; auto. apply in_app_iff. right. now left.
        * intros [H|(r' & rc & H1 & H3 & H4)]; auto. apply in_app_iff in H1 as [H1|[<-|[]]]; [left; right; exists r', rc; auto|right; exists rc; auto].
      + intros A. rewrite K2, Hk. split.
        * intros [[H|(r' & rc & H1 & H3)]|(rc & H1 & H3)]; auto; right.
          -- exists r', rc. split; auto. apply in_app_iff; auto.
          -- exists r, rc. split; auto. apply in_app_iff. right. now left.
        * intros [H|(r' & rc & H1 & H3 & H4)]; auto. apply in_app_iff in H1 as [H1|[<-|[]]]; [left; right; exists r', rc; auto|right; exists rc; auto]. }
  assert (Hin : forall (Q : T -> list T -> Prop),
     (exists r rc, In r (bm_values rules) /\ In rc (r_prods r) /\ Q (r_name r) (fst rc)) <->
     (exists B i rhs, prod_at rules B i rhs /\ Q B rhs)).
  { intros Q. split.
    - intros (r & rc & H1 & H2 & H3). apply wf_in in H1; auto. exists (r_name r), (snd rc), (fst rc). split; auto.
      eapply wf_prod_in; eauto.
    - intros (B & i & rhs & Hp & H3). apply wf_prod_at in Hp as (r & Er & Hn); auto.
      assert (r_name r = B) as En by (apply W; auto). exists r, (rhs, i). split; [|split].
      + apply wf_in; auto. now rewrite En.
      + eapply nth_error_In; eauto.
      + now rewrite En. }
  split; auto. split.
  - intros A x. rewrite Hx. unfold edge. rewrite <- (Hin (fun B rhs => pair_edge rhs A x \/ last_edge B rhs A x)). reflexivity.
  - intros A. rewrite Hk. unfold fkey. rewrite <- (Hin (fun B rhs => pair_key rhs A \/ last_key B rhs A)). reflexivity.
Qed.

Lemma fkey_nonterm A : fkey A -> nonterm rules A.
Proof.
  intros [->|(B & i & rhs & Hp & [(u & Y & v & E & N)|(u & E & N & _)])]; auto.
Qed.

Lemma edge_nonterm A x : edge A x -> nonterm rules A.
Proof.
  intros [[-> _]|(B & i & rhs & Hp & [(u & Y & v & E & N & _)|(u & E & N & _)])]; auto.
Qed.

(** FOLLOW is closed under "last symbol of", whatever FIRST holds *)
Lemma proc_follow_last dbg fuel tbl f B i u A t : gen_follow g first = Val tbl -> proc_follow dbg fuel g tbl = Val f ->
  prod_at rules B i (u ++ [A]) -> nonterm rules A -> term rules t -> tin f B t -> tin f A t.
Proof.
  intros E0 E Hp HA Ht Hin. unfold proc_follow in E. inv_bind E. inv_bind H0. injection H2 as <-.
  pose proof (gen_follow_spec _ E0) as (Hs & Hx & Hk).
  apply follow_fix in H as [(Hs' & Hk' & Hr & _) Hfix]; auto.
  assert (Hkk : forall A s, bm_get A a = Some s -> nonterm rules A).
  { intros A' s Es. apply fkey_nonterm. apply Hk. rewrite <- Hk'. unfold bm_mem. now rewrite Es. }
  destruct (ord_dec A B) as [->|NB]; auto.
  assert (nonterm rules B) as HB by (eapply prod_nonterm; eauto).
  assert (exists n, reach g a n B t) as Hn by (exists 1; now constructor).
  apply Hr in Hn as (n & Hn); auto.
  assert (exists n, reach g tbl n A t) as Hn'.
  { exists (S n). apply reach_S with B; auto. apply Hx. right. exists B, i, (u ++ [A]). split; auto. right. exists u. repeat split; auto. }
  apply Hr in Hn' as (n' & Hn'); auto. eapply reach_fix; eauto.
Qed.

Section Exact.
Hypothesis Hfx : forall A t, nonterm rules A -> term rules t -> (tin first A t <-> first_spec rules A t).
Hypothesis Heof : term rules eof.

Lemma follow_reach_complete tbl A t : gen_follow g first = Val tbl ->
  follow_rules rules start eof A t -> exists n, reach g tbl n A t.
Proof.
  intros E. apply gen_follow_spec in E as (_ & Hx & _).
  induction 1 as [|B i u A Y v t Hp N [Ht Hd]|B i u A t Hp N Hf (n & IH)].
  - exists 1. constructor; auto. apply Hx. left. auto.
  - exists 1. constructor; auto. apply Hx. right. exists B, i, (u ++ A :: Y :: v). split; auto.
    left. exists u, Y, v. split; auto. split; auto.
    destruct (nonterm_dec rules Y) as [NY|NY].
    + right. split; auto. apply Hfx; auto. now split.
    + left. split; auto. apply (proj1 (first_term rules Y t NY)). split; auto.
  - destruct (ord_dec A B) as [->|NB]; eauto.
    exists (S n). apply reach_S with B; auto.
    + apply Hx. right. exists B, i, (u ++ [A]). split; auto. right. exists u. repeat split; auto.
    + eapply prod_nonterm; eauto.
Qed.

Lemma follow_reach_sound tbl n A t : gen_follow g first = Val tbl ->
  (forall A t, tin first A t -> term rules t) ->
  reach g tbl n A t -> follow_rules rules start eof A t.
Proof.
  intros E Hft. apply gen_follow_spec in E as (_ & Hx & _).
  induction 1 as [A t H Ht|n A B t H HB Hr IH].
  - apply Hx in H as [[-> ->]|(B & i & rhs & Hp & [(u & Y & v & -> & N & H)|(u & -> & N & _ & ->)])].
    + constructor.
    + eapply fr_first; eauto. destruct H as [[HY ->]|[HY H]].
      * apply first_term; auto.
      * apply Hfx; auto.
    + exfalso. apply Ht. eapply prod_nonterm; eauto.
  - apply Hx in H as [[-> ->]|(B' & i & rhs & Hp & [(u & Y & v & -> & N & H)|(u & -> & N & _ & ->)])].
    + contradiction.
    + exfalso. destruct H as [[HY ->]|[HY H]]; [contradiction|]. apply Hft in H. contradiction.
    + eapply fr_last; eauto.
Qed.

Lemma proc_follow_spec dbg fuel tbl f : gen_follow g first = Val tbl -> proc_follow dbg fuel g tbl = Val f ->
  (forall A, bm_mem A f = true <-> fkey A) /\
  (forall A t, follow_rules rules start eof A t -> tin f A t) /\
  ((forall A t, tin first A t -> term rules t) ->
     forall A t, term rules t -> tin f A t -> follow_rules rules start eof A t) /\
  (dbg = true -> forall A t, tin f A t -> term rules t) /\ msorted f.
Proof.
  intros E0 E. unfold proc_follow in E. inv_bind E. inv_bind H0. injection H2 as <-.
  pose proof (gen_follow_spec _ E0) as (Hs & Hx & Hk).
  apply follow_fix in H as [(Hs' & Hk' & Hr & _) Hfix]; auto.
  assert (Hkk : forall A s, bm_get A a = Some s -> nonterm rules A).
  { intros A s Es. apply fkey_nonterm. apply Hk. rewrite <- Hk'. unfold bm_mem. now rewrite Es. }
  split; [|split; [|split; [|split]]]; auto.
  - intros A. rewrite Hk'. auto.
  - intros A t Hf. pose proof (follow_reach_complete _ _ _ E0 Hf) as Hn.
    assert (nonterm rules A) as HA.
    { destruct Hf; auto. }
    apply Hr in Hn as (n & Hn); auto. eapply reach_fix; eauto.
  - intros Hft A t Ht Hin. assert (nonterm rules A) as HA by (destruct Hin as (s & Es & _); eauto).
    assert (exists n, reach g a n A t) as Hn by (exists 1; now constructor).
    apply Hr in Hn as (n & Hn); auto. eapply follow_reach_sound; eauto.
  - intros Hd A t (s & Es & Hin). eapply dassert_val in H1; auto. unfold all_terminal in H1.
    rewrite forallb_forall in H1. apply bm_get_in in Es. specialize (H1 _ Es).
    rewrite forallb_forall in H1. apply is_terminal_term. now apply H1.
Qed.
End Exact.
End Follow.

(** ** What [Tabler::new] returns *)
Section Tabler.
Variables (dbg : bool) (start eof : T) (rules : rulemap T) (g : grammar T).
Hypothesis W : wf_rules rules.
Hypothesis Hg : grammar_new dbg start rules eof = Val g.

Record tabler_facts (t : tabler T) : Prop := {
  tf_grammar : t_grammar t = g;
  tf_noempty : noempty rules;
  tf_first_keys : forall A, (exists s, bm_get A (t_first t) = Some s) <-> nonterm rules A;
  tf_first : forall A a, nonterm rules A -> term rules a -> (tin (t_first t) A a <-> first_spec rules A a);
  tf_first_rhs : forall A x, tin (t_first t) A x -> exists B i v, prod_at rules B i (x :: v);
  tf_first_debug : dbg = true -> forall A a, tin (t_first t) A a -> term rules a;
  tf_follow_keys : forall A, bm_mem A (t_follow t) = true <->
     A = start \/ exists B i rhs, prod_at rules B i rhs /\ nonterm rules A /\
       ((exists u Y v, rhs = u ++ A :: Y :: v) \/ (exists u, rhs = u ++ [A] /\ A <> B));
  tf_follow_complete : term rules eof -> forall A a, follow_rules rules start eof A a -> tin (t_follow t) A a;
  tf_follow_sound : term rules eof -> (forall A a, tin (t_first t) A a -> term rules a) ->
     forall A a, term rules a -> tin (t_follow t) A a -> follow_rules rules start eof A a;
  tf_follow_debug : dbg = true -> forall A a, tin (t_follow t) A a -> term rules a;
  tf_follow_last : forall B i u A a, prod_at rules B i (u ++ [A]) -> nonterm rules A -> term rules a ->
     tin (t_follow t) B a -> tin (t_follow t) A a;
  tf_first_sorted : msorted (t_first t);
  tf_follow_sorted : msorted (t_follow t);
  tf_follow_syms : forall A x, tin (t_follow t) A x -> x = eof \/ nonterm rules x \/ exists B i rhs, prod_at rules B i rhs /\ In x rhs
}.

Lemma tabler_new_facts fuel t : tabler_new dbg fuel g = Val t -> tabler_facts t.
Proof.
  unfold tabler_new. intros E. inv_bind E. inv_bind H0. inv_bind H2. inv_bind H3. injection H4 as <-.
  apply grammar_new_inv in Hg as (Er & r & p0 & ps & Es & Ep & Eb & _).
  assert (Hst : nonterm (g_rules g) start) by (exists r; congruence).
  assert (Wg : wf_rules (g_rules g)) by congruence.
  pose proof (gen_first_spec g Wg _ H) as (NE & _).
  pose proof (proc_first_spec g Wg _ _ _ _ H H1) as (Hs & Hk & Hf & Hd & Hr).
  destruct (fun X => gen_follow_spec g start eof p0 Wg X Hst a0 _ H0) as (Hs2 & Hx2 & Hk2); [exact Eb|].
  assert (Hpf : term rules eof -> 
    (forall A t, follow_rules (g_rules g) start eof A t -> tin a2 A t) /\
    ((forall A t, tin a0 A t -> term (g_rules g) t) ->
     forall A t, term (g_rules g) t -> tin a2 A t -> follow_rules (g_rules g) start eof A t)).
  { intros He. rewrite <- Er in He.
    destruct (proc_follow_spec g start eof p0 Wg Eb Hst a0 Hf He _ _ _ _ H0 H2) as (_ & X1 & X2 & _). auto. }
  assert (Hkeys : (forall A, bm_mem A a2 = true <-> fkey g start A) /\ 
     (dbg = true -> forall A x, tin a2 A x -> term (g_rules g) x) /\ msorted a2 /\ (forall A x, tin a2 A x -> exists B, tin a1 B x)).
  { pose proof H2 as H3'. unfold proc_follow in H3'. inv_bind H3'. inv_bind H4. injection H6 as ->.
    apply follow_fix in H3 as [(Hs' & Hk' & Hr' & Hx') Hfix]; auto. split; [|split; auto].
    - intros A. rewrite Hk'. apply Hk2.
    - intros Hdb A x (s & Es' & Hin). eapply dassert_val in H5; auto. unfold all_terminal in H5.
      rewrite forallb_forall in H5. apply bm_get_in in Es'. specialize (H5 _ Es').
      rewrite forallb_forall in H5. apply is_terminal_term. now apply H5. }
  destruct Hkeys as (Hkeys & Hfd & Hfs & Hfo).
  rewrite Er in *. constructor; simpl; auto.
  - intros A. rewrite Hkeys. unfold fkey, pair_key, last_key. rewrite Er. split.
    + intros [->|(B & i & rhs & Hp & [(u & Y & v & E & N)|(u & E & N & N')])]; auto; right; exists B, i, rhs;
      (split; [exact Hp|split; [exact N|eauto 6]]).
    + intros [->|(B & i & rhs & Hp & N & [(u & Y & v & E)|(u & E & N')])]; auto; right; exists B, i, rhs;
      (split; [exact Hp|]); [left; exists u, Y, v; auto | right; exists u; auto].
  - intros He. apply Hpf; auto.
  - intros He Hft A a1' Ha Hin. apply Hpf; auto.
  - intros B i u A a1' Hp HA Ha Hin. rewrite <- Er in *. eapply (proc_follow_last g start eof p0); eauto.
  - intros A x Hin. apply Hfo in Hin as (B & Hin). apply Hx2 in Hin as [[_ ->]|(B' & i & rhs & Hp & [(u & Y & v & -> & _ & [[_ ->]|[_ Hin]])|(u & _ & _ & _ & ->)])]; auto; right.
    + right. rewrite Er in Hp. exists B', i, (u ++ B :: Y :: v). split; auto. apply in_app_iff. simpl. auto.
    + right. apply Hr in Hin as (C & j & w & Hp'). exists C, j, (x :: w). split; auto. now left.
    + left. rewrite Er in Hp. eapply prod_nonterm; eauto.
Qed.
End Tabler.
End FF.
