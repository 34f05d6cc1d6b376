(** Action tables: which entries [proc_actions] produces (C26). *)
From Coq Require Import List Bool Arith Lia.
From Verif Require Import BTree Model Base Spec SpecP GrammarP FirstFollow Closure.
Import ListNotations.

Section ActTab.
Context {T : Type} {OT : Ord T}.

(** the plain actions recorded in an entry *)
Fixpoint leaves (a : action T) : list (action T) :=
  match a with Conflict a b => leaves a ++ leaves b | _ => [a] end.

Lemma leaves_plain a : is_conflict a = false -> leaves a = [a].
Proof. destruct a; simpl; congruence. Qed.

Lemma leaves_not_conflict a b : In b (leaves a) -> is_conflict b = false.
Proof.
  induction a as [n|n|x p| |a1 IH1 a2 IH2]; simpl; try (intros [<-|[]]; reflexivity).
  intros H. apply in_app_iff in H as [H|H]; auto.
Qed.

Lemma leaves_nonempty a : exists b, In b (leaves a).
Proof.
  induction a as [n|n|x p| |a1 (b & IH1) a2 _]; simpl; eauto. exists b. apply in_app_iff. auto.
Qed.

Variable g : grammar T.
Variable lookf : position T -> res (bset T).
Variable sfk : state T -> option nat.
Variable start : T.

(** [pos], an element of state [row], asks for [act] on symbol [t] *)
Inductive dec (row : state T) (pos : position T) : T -> action T -> Prop :=
| dec_shift t n : ptop pos = Some t -> term (g_rules g) t -> sfk (sym_filter row t) = Some n -> dec row pos t (Shift n)
| dec_goto t n : ptop pos = Some t -> nonterm (g_rules g) t -> sfk (sym_filter row t) = Some n -> dec row pos t (Goto n)
| dec_reduce t look : ptop pos = None -> lookf pos = Val look -> In t look -> p_rule pos <> start ->
    dec row pos t (Reduce (p_rule pos) (p_seq pos))
| dec_acc t look : ptop pos = None -> lookf pos = Val look -> In t look -> p_rule pos = start -> dec row pos t Acc.

Lemma dec_plain row pos t act : dec row pos t act -> is_conflict act = false.
Proof. destruct 1; reflexivity. Qed.

Lemma dec_fun row pos t a b : dec row pos t a -> dec row pos t b -> a = b.
Proof. destruct 1; inversion 1; try congruence; try contradiction. Qed.

Lemma decision_spec pos row d : decision g lookf sfk start pos row = Val d ->
  msorted d /\ forall t act, bm_get t d = Some act <-> dec row pos t act.
Proof.
  unfold decision. destruct (ptop pos) as [locus|] eqn:Et; intros E.
  - inv_bind E. injection H0 as <-. apply expect_val in H. split; [split; [intros ? []|exact I]|].
    intros t act. simpl. destruct (eqb_spec t locus) as [->|N].
    + destruct (is_terminal g locus) eqn:Ei.
      * apply is_terminal_term in Ei. split; [intros [= <-]; now constructor|].
        inversion 1; subst; try congruence; try contradiction.
      * apply is_terminal_nonterm in Ei. split; [intros [= <-]; now constructor|].
        inversion 1; subst; try congruence; try contradiction.
    + split; [discriminate|]. inversion 1; congruence.
  - inv_bind E. injection H0 as <-. split; [apply bm_of_list_sorted|].
    match goal with |- context [bm_of_list (map ?F _)] => set (f := F) end. intros t act. split.
    + intros Ht. apply bm_of_list_get in Ht. apply in_map_iff in Ht as (l & El & Hl).
      subst f. cbv beta in El. injection El as <- <-. destruct (eqb_spec (p_rule pos) start); econstructor; eauto.
    + intros Hd. assert (In t a) as Ht by (inversion Hd; congruence).
      assert (In t (bm_keys (bm_of_list (map f a)))) as Hk.
      { apply bm_of_list_mem. rewrite map_map. apply in_map_iff. exists t. auto. }
      apply bm_get_keys in Hk as (act' & Hk). rewrite Hk. f_equal.
      apply bm_of_list_get in Hk. apply in_map_iff in Hk as (l & El & Hl). subst f. cbv beta in El.
      injection El as _ <-. destruct (eqb_spec (p_rule pos) start); inversion Hd; congruence.
Qed.

Definition comb (o : option (action T)) (act : action T) : action T :=
  match o with Some old => if eqb old act then act else Conflict old act | None => act end.

Lemma add_action_get m e t : bm_get t (add_action m e) = 
  if eqb t (fst e) then Some (comb (bm_get t m) (snd e)) else bm_get t m.
Proof.
  destruct e as [k act]. unfold add_action, comb. simpl. destruct (eqb_spec t k) as [->|N].
  - destruct (bm_get k m) as [old|]; [destruct (eqb old act)|]; apply bm_get_insert_eq.
  - destruct (bm_get k m) as [old|]; [destruct (eqb old act)|]; now apply bm_get_insert_neq.
Qed.

Lemma add_action_sorted m e : msorted m -> msorted (add_action m e).
Proof.
  destruct e as [k act]. unfold add_action. intros H.
  destruct (bm_get k m) as [old|]; [destruct (eqb old act)|]; now apply bm_insert_sorted.
Qed.

Lemma add_actions_sorted d m : msorted m -> msorted (fold_left add_action d m).
Proof. revert m. induction d; intros m H; simpl; auto using add_action_sorted. Qed.

Lemma add_actions_get d m t : msorted d -> bm_get t (fold_left add_action d m) =
  match bm_get t d with Some act => Some (comb (bm_get t m) act) | None => bm_get t m end.
Proof.
  revert m. induction d as [|[k act] d IH]; intros m Hs; auto. cbn [fold_left bm_get].
  destruct Hs as [Hk Hs]. rewrite IH by exact Hs. rewrite add_action_get. simpl.
  destruct (eqb_spec t k) as [->|N]; auto.
  assert (bm_get k d = None) as ->; auto.
  apply bm_get_none. intros Hin. apply Hk in Hin. now rewrite cmp_refl in Hin.
Qed.

Definition wf_entry (a : action T) : Prop :=
  is_conflict a = true -> exists b c, In b (leaves a) /\ In c (leaves a) /\ b <> c.

Lemma comb_leaves o act b : is_conflict act = false ->
  In b (leaves (comb o act)) <-> b = act \/ exists a, o = Some a /\ In b (leaves a).
Proof.
  intros Hp. unfold comb. destruct o as [old|].
  - destruct (eqb_spec old act) as [->|N].
    + rewrite leaves_plain by auto. simpl. split.
      * intros [<-|[]]; auto.
      * intros [->|(a & [= <-] & Ha)]; auto. rewrite leaves_plain in Ha; auto.
    + simpl. rewrite in_app_iff, (leaves_plain act) by auto. simpl. split.
      * intros [H|[<-|[]]]; eauto.
      * intros [->|(a & [= <-] & Ha)]; auto.
  - rewrite leaves_plain by auto. simpl. split; [intros [<-|[]]; auto|]. intros [->|(a & [=] & _)]; auto.
Qed.

Lemma comb_wf o act : is_conflict act = false -> (forall a, o = Some a -> wf_entry a) -> wf_entry (comb o act).
Proof.
  intros Hp Hw. unfold comb. destruct o as [old|]; [|unfold wf_entry; congruence].
  destruct (eqb_spec old act) as [->|N]; [unfold wf_entry; congruence|].
  intros _. simpl. destruct (is_conflict old) eqn:Eo.
  - destruct (Hw _ eq_refl Eo) as (b & c & Hb & Hc & Hn). exists b, c. rewrite !in_app_iff. auto.
  - exists old, act. rewrite !leaves_plain by auto. simpl. auto.
Qed.

Definition row_ok (row : state T) (m : bmap T (action T)) : Prop :=
  msorted m /\
  (forall t act, (exists a, bm_get t m = Some a /\ In act (leaves a)) <-> exists pos, In pos row /\ dec row pos t act) /\
  (forall t a, bm_get t m = Some a -> wf_entry a).

Lemma row_actions_spec row m : row_actions g lookf sfk start row = Val m -> row_ok row m.
Proof.
  unfold row_actions, row_ok. intros E.
  apply (foldM_ind _ (fun done m => msorted m /\
    (forall t act, (exists a, bm_get t m = Some a /\ In act (leaves a)) <-> exists pos, In pos done /\ dec row pos t act) /\
    (forall t a, bm_get t m = Some a -> wf_entry a))) in E; auto.
  - split; [exact I|]. split; [|discriminate]. intros t act. split; [intros (a & [=] & _)|intros (pos & [] & _)].
  - intros done pos todo m1 m2 _ (H1 & H2 & H3) Hs. inv_bind Hs. injection H0 as <-.
    apply decision_spec in H as [Hsd Hd]. split; [now apply add_actions_sorted|]. split.
    + intros t act. rewrite add_actions_get by auto. split.
      * intros (a0 & Ea & Ha). destruct (bm_get t a) as [act'|] eqn:Ed.
        -- apply Hd in Ed. injection Ea as <-. apply comb_leaves in Ha as [->|Ha]; [| |eapply dec_plain; eauto].
           ++ exists pos. rewrite in_app_iff. simpl. auto.
           ++ apply H2 in Ha as (pos' & Hp & Hd'). exists pos'. rewrite in_app_iff. auto.
        -- destruct (proj1 (H2 t act)) as (pos' & Hp & Hd'); eauto. exists pos'. rewrite in_app_iff. auto.
      * intros (pos' & Hp & Hd'). apply in_app_iff in Hp as [Hp|[<-|[]]].
        -- destruct (proj2 (H2 t act)) as (a0 & Ea & Ha); eauto.
           destruct (bm_get t a) as [act'|] eqn:Ed; [|eauto].
           eexists. split; [reflexivity|]. apply Hd in Ed. apply comb_leaves; [eapply dec_plain; eauto|eauto].
        -- pose proof Hd' as Ed. apply Hd in Ed. rewrite Ed. eexists. split; [reflexivity|].
           apply comb_leaves; [eapply dec_plain; eauto|auto].
    + intros t a0. rewrite add_actions_get by auto. destruct (bm_get t a) as [act'|] eqn:Ed; [|apply H3].
      intros [= <-]. apply Hd in Ed. apply comb_wf; [eapply dec_plain; eauto|]. intros a1 Ea1. eauto.
Qed.

(** one decision: the entry is that decision, or a conflict *)
Lemma row_ok_dec row m pos t act : row_ok row m -> In pos row -> dec row pos t act ->
  bm_get t m = Some act \/ exists a b, bm_get t m = Some (Conflict a b).
Proof.
  intros (_ & H & _) Hp Hd. destruct (proj2 (H t act)) as (a & Ea & Ha); eauto.
  rewrite Ea. destruct (is_conflict a) eqn:Ec.
  - destruct a; try discriminate. eauto.
  - rewrite leaves_plain in Ha by auto. destruct Ha as [->|[]]. auto.
Qed.

Lemma row_ok_entry row m t a : row_ok row m -> bm_get t m = Some a -> is_conflict a = false ->
  (exists pos, In pos row /\ dec row pos t a) /\ (forall pos b, In pos row -> dec row pos t b -> b = a).
Proof.
  intros (_ & H & _) Ea Ec. split.
  - apply H. exists a. rewrite leaves_plain by auto. simpl. auto.
  - intros pos b Hp Hd. destruct (proj2 (H t b)) as (a' & Ea' & Hb); eauto.
    rewrite Ea in Ea'. injection Ea' as <-. rewrite leaves_plain in Hb by auto. destruct Hb as [->|[]]. auto.
Qed.

(** an entry is a conflict exactly when two positions decide differently *)
Lemma row_ok_conflict row m t : row_ok row m ->
  (exists a b, bm_get t m = Some (Conflict a b)) <->
  (exists p q a b, In p row /\ In q row /\ dec row p t a /\ dec row q t b /\ a <> b).
Proof.
  intros (Hs & H & Hw). split.
  - intros (a & b & E). destruct (Hw _ _ E eq_refl) as (x & y & Hx & Hy & N).
    destruct (proj1 (H t x)) as (p & Hp & Hdp); eauto.
    destruct (proj1 (H t y)) as (q & Hq & Hdq); eauto. exists p, q, x, y. auto.
  - intros (p & q & a & b & Hp & Hq & Hdp & Hdq & N).
    destruct (proj2 (H t a)) as (e & Ee & Ha); eauto.
    destruct (proj2 (H t b)) as (e' & Ee' & Hb); eauto. rewrite Ee in Ee'. injection Ee' as <-.
    destruct (is_conflict e) eqn:Ec.
    + destruct e; try discriminate. eauto.
    + rewrite leaves_plain in Ha, Hb by auto. destruct Ha as [<-|[]], Hb as [<-|[]]. congruence.
Qed.

(** totality *)
Lemma row_actions_total row :
  (forall pos, In pos row -> (forall X, ptop pos = Some X -> exists n, sfk (sym_filter row X) = Some n) /\
      (ptop pos = None -> exists look, lookf pos = Val look)) ->
  exists m, row_actions g lookf sfk start row = Val m.
Proof.
  intros H. unfold row_actions.
  destruct (foldM_total (fun m item => do d <- decision g lookf sfk start item row; Val (fold_left add_action d m))
    (fun _ => True) row []) as (m & E & _); eauto.
  intros pos m Hp _. destruct (H pos Hp) as [H1 H2]. unfold decision. destruct (ptop pos) as [X|].
  - destruct (H1 X eq_refl) as (n & ->). simpl. eauto.
  - destruct (H2 eq_refl) as (look & ->). simpl. eauto.
Qed.
End ActTab.

Section Tables.
Context {T : Type} {OT : Ord T}.
Variable g : grammar T.
Variable lookf : position T -> res (bset T).
Variable sfk : state T -> option nat.

(** the entry of a table at a state and a symbol *)
Definition entry (acts : acttable T) (q : nat) (t : T) : option (action T) :=
  match nth_error acts q with Some row => bm_get t row | None => None end.

Lemma proc_actions_spec sts acts : proc_actions g lookf sfk sts = Val acts ->
  length acts = length sts /\
  (forall q row, nth_error sts q = Some row -> exists m, nth_error acts q = Some m /\ row_ok g lookf sfk (p_rule (g_basis g)) row m).
Proof.
  intros E. split; [eapply mapM_length; eauto|]. intros q row Hq.
  eapply mapM_nth in E as (m & Em & H); eauto. exists m. split; auto. now apply row_actions_spec.
Qed.

Lemma in_conflicts (acts : acttable T) (a : action T) : In a (conflicts acts) <->
  is_conflict a = true /\ exists q (row : bmap T (action T)) t, nth_error acts q = Some row /\ In (t, a) row.
Proof.
  unfold conflicts. rewrite filter_In, in_flat_map. split.
  - intros [(row & Hr & Ha) Hc]. split; auto. apply in_nth_error in Hr as (q & Hq).
    unfold bm_values in Ha. apply in_map_iff in Ha as ([t a'] & <- & Ha). eauto.
  - intros [Hc (q & row & t & Hq & Ha)]. split; auto. exists row. split; [eapply nth_error_In; eauto|].
    unfold bm_values. apply in_map_iff. exists (t, a). auto.
Qed.
End Tables.
