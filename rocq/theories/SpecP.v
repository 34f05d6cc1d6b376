(** Facts about the specification vocabulary of [Spec]. *)
From Coq Require Import List Bool Arith Lia.
From Verif Require Import BTree Model Base Spec.
Import ListNotations.

Section SpecP.
Context {T : Type} {OT : Ord T}.
Variable rules : rulemap T.
Notation derives := (derives rules).
Notation rewrites := (rewrites rules).
Notation term := (term rules).
Notation nonterm := (nonterm rules).
Notation prod_at := (prod_at rules).

Lemma nonterm_dec A : {nonterm A} + {term A}.
Proof.
  destruct (bm_get A rules) as [r|] eqn:E.
  - left. now exists r.
  - right. intros (r & E'). congruence.
Qed.

Lemma prod_nonterm A i rhs : prod_at A i rhs -> nonterm A.
Proof. intros (r & k & E & _). now exists r. Qed.

Lemma derives_trans u v w : derives u v -> derives v w -> derives u w.
Proof. induction 1; auto. intros. econstructor; eauto. Qed.

Lemma derives_ctx a b u v : derives u v -> derives (a ++ u ++ b) (a ++ v ++ b).
Proof.
  induction 1 as [|u v w Hr Hd IH]; [constructor|].
  eapply derives_step; [|exact IH]. destruct Hr as [x A y i rhs Hp].
  replace (a ++ (x ++ A :: y) ++ b) with ((a ++ x) ++ A :: (y ++ b)) by now rewrite <- !app_assoc.
  replace (a ++ (x ++ rhs ++ y) ++ b) with ((a ++ x) ++ rhs ++ (y ++ b)) by now rewrite <- !app_assoc.
  econstructor; eauto.
Qed.

Lemma derives_app u u' v v' : derives u u' -> derives v v' -> derives (u ++ v) (u' ++ v').
Proof.
  intros H1 H2. apply derives_trans with (u' ++ v).
  - apply (derives_ctx [] v) in H1. exact H1.
  - apply (derives_ctx u' []) in H2. now rewrite !app_nil_r in H2.
Qed.

Lemma derives_cons X v v' : derives v v' -> derives (X :: v) (X :: v').
Proof. intros H. apply (derives_app [X] [X]); auto. constructor. Qed.

Lemma derives_prod A i rhs : prod_at A i rhs -> derives [A] rhs.
Proof.
  intros H. eapply derives_step; [|constructor].
  pose proof (rewrites_intro rules [] A [] i rhs H) as R. simpl in R. now rewrite app_nil_r in R.
Qed.

Lemma derives_split u v w : derives (u ++ v) w ->
  exists w1 w2, w = w1 ++ w2 /\ derives u w1 /\ derives v w2.
Proof.
  remember (u ++ v) as x eqn:Ex. intros H. revert u v Ex.
  induction H as [x|x y w Hr Hd IH]; intros u v ->.
  - exists u, v. repeat split; constructor.
  - inversion Hr as [a A b i rhs Hp Ea Eb]. 
    apply app_eq_app in Ea as (l & [[-> E]|[-> E]]); subst.
    + destruct (IH u (l ++ rhs ++ b)) as (w1 & w2 & -> & D1 & D2).
      { now rewrite <- !app_assoc. }
      exists w1, w2. repeat split; auto.
      eapply derives_step; [|exact D2]. now apply (rewrites_intro rules l A b i).
    + destruct l as [|x l]; simpl in E; [|].
      * subst v. destruct (IH a (rhs ++ b)) as (w1 & w2 & -> & D1 & D2); auto.
        exists w1, w2. repeat split; auto.
        { now rewrite app_nil_r. }
        eapply derives_step; [|exact D2]. apply (rewrites_intro rules [] A b i rhs Hp).
      * injection E as -> ->. 
        destruct (IH (a ++ rhs ++ l) v) as (z1 & z2 & Ez & F1 & F2).
        { now rewrite <- !app_assoc. }
        exists z1, z2. repeat split; auto.
        eapply derives_step; [|exact F1]. now apply (rewrites_intro rules a x l i).
Qed.

Lemma derives_terms u w : derives u w -> Forall term u -> w = u.
Proof.
  destruct 1 as [|u v w Hr Hd]; auto. intros F. destruct Hr as [a A b i rhs Hp].
  apply Forall_app in F as [_ F]. inversion F; subst. apply prod_nonterm in Hp. contradiction.
Qed.

Lemma derives_nil w : derives [] w -> w = [].
Proof. intros H. apply derives_terms in H; auto. Qed.

(** first step of a derivation from one nonterminal *)
Lemma derives_single A w : derives [A] w -> w = [A] \/ exists i rhs, prod_at A i rhs /\ derives rhs w.
Proof.
  inversion 1 as [|u v w' Hr Hd]; subst; auto. right.
  inversion Hr as [a B b i rhs Hp Ea Eb].
  destruct a as [|x a]; simpl in Ea.
  - injection Ea as -> ->. subst v. simpl in Hd. rewrite app_nil_r in Hd. eauto.
  - injection Ea as -> Ea. destruct a; discriminate.
Qed.

(** ** trees *)
Lemma trees_app Xs Ys w ts :
  trees_of rules (Xs ++ Ys) w ts ->
  exists w1 w2 t1 t2, w = w1 ++ w2 /\ ts = t1 ++ t2 /\ trees_of rules Xs w1 t1 /\ trees_of rules Ys w2 t2.
Proof.
  revert w ts. induction Xs as [|X Xs IH]; intros w ts H; simpl in H.
  - exists [], w, [], ts. repeat split; auto. constructor.
  - inversion H as [|X' Xs' w1 w2 t ts' Ht Hts]; subst.
    destruct (IH _ _ Hts) as (a & b & c & d & -> & -> & H1 & H2).
    exists (w1 ++ a), b, (t :: c), d. rewrite app_assoc. repeat split; auto. now constructor.
Qed.

Lemma trees_app_intro Xs Ys w1 w2 t1 t2 :
  trees_of rules Xs w1 t1 -> trees_of rules Ys w2 t2 -> trees_of rules (Xs ++ Ys) (w1 ++ w2) (t1 ++ t2).
Proof.
  intros H1 H2. revert w1 t1 H1. induction Xs as [|X Xs IH]; intros w1 t1 H1; inversion H1; subst; simpl; auto.
  rewrite <- app_assoc. constructor; auto.
Qed.

Lemma trees_terms w : Forall term w -> trees_of rules w w (map Leaf w).
Proof.
  induction 1 as [|t w Ht _ IH]; simpl; [constructor|].
  apply (trees_cons rules t w [t] w); auto. now constructor.
Qed.

Lemma derives_trees Xs w : derives Xs w -> Forall term w -> exists ts, trees_of rules Xs w ts.
Proof.
  intros H Fw. induction H as [w|u v w Hr Hd IH].
  - exists (map Leaf w). now apply trees_terms.
  - destruct (IH Fw) as (ts & Hts). destruct Hr as [a A b i rhs Hp].
    apply trees_app in Hts as (w1 & w2 & t1 & t2 & -> & -> & H1 & H2).
    apply trees_app in H2 as (w3 & w4 & t3 & t4 & -> & -> & H3 & H4).
    exists (t1 ++ Node A i t3 :: t4). apply trees_app_intro; auto. constructor; auto. econstructor; eauto.
Qed.

Lemma trees_derives :
  (forall X w t, tree_of rules X w t -> derives [X] w /\ Forall term w) /\
  (forall Xs w ts, trees_of rules Xs w ts -> derives Xs w /\ Forall term w).
Proof.
  apply tree_of_mut.
  - intros t Ht. split; [constructor|auto].
  - intros A i rhs w cs Hp _ [IH F]. split; auto. eapply derives_trans; [eapply derives_prod; eauto|auto].
  - split; constructor.
  - intros X Xs w1 w2 t ts _ [D1 F1] _ [D2 F2]. split; [|now apply Forall_app].
    now apply (derives_app [X]).
Qed.

(** ** values *)
Section Values.
Context {M : Type}.
Variable maps : reductmap T M.

Lemma evals_ty : 
  (forall X w it, evals rules maps X w it -> tk_ty it = X) /\
  (forall Xs w its, evals_seq rules maps Xs w its -> map tk_ty its = Xs).
Proof.
  apply evals_mut; simpl; auto. intros; congruence.
Qed.

Lemma evals_derives :
  (forall X w it, evals rules maps X w it -> derives [X] (map tk_ty w) /\ Forall term (map tk_ty w)) /\
  (forall Xs w its, evals_seq rules maps Xs w its -> derives Xs (map tk_ty w) /\ Forall term (map tk_ty w)).
Proof.
  apply evals_mut; simpl.
  - intros tok Ht. split; [constructor|auto].
  - intros A i rhs w its fs f Hp _ [IH F] _ _. split; auto.
    eapply derives_trans; [eapply derives_prod; eauto|auto].
  - split; constructor.
  - intros X Xs w1 w2 it its _ [D1 F1] _ [D2 F2]. rewrite map_app. split; [|now apply Forall_app].
    now apply (derives_app [X]).
Qed.

Lemma evals_app Xs Ys w its :
  evals_seq rules maps (Xs ++ Ys) w its ->
  exists w1 w2 t1 t2, w = w1 ++ w2 /\ its = t1 ++ t2 /\ evals_seq rules maps Xs w1 t1 /\ evals_seq rules maps Ys w2 t2.
Proof.
  revert w its. induction Xs as [|X Xs IH]; intros w ts H; simpl in H.
  - exists [], w, [], ts. repeat split; auto. constructor.
  - inversion H as [|X' Xs' w1 w2 t ts' Ht Hts]; subst.
    destruct (IH _ _ Hts) as (a & b & c & d & -> & -> & H1 & H2).
    exists (w1 ++ a), b, (t :: c), d. rewrite app_assoc. repeat split; auto. now constructor.
Qed.

Lemma evals_app_intro Xs Ys w1 w2 t1 t2 :
  evals_seq rules maps Xs w1 t1 -> evals_seq rules maps Ys w2 t2 ->
  evals_seq rules maps (Xs ++ Ys) (w1 ++ w2) (t1 ++ t2).
Proof.
  intros H1 H2. revert w1 t1 H1. induction Xs as [|X Xs IH]; intros w1 t1 H1; inversion H1; subst; simpl; auto.
  rewrite <- app_assoc. constructor; auto.
Qed.

Lemma evals_snoc Xs X w1 w2 its it :
  evals_seq rules maps Xs w1 its -> evals rules maps X w2 it ->
  evals_seq rules maps (Xs ++ [X]) (w1 ++ w2) (its ++ [it]).
Proof.
  intros H1 H2. apply evals_app_intro; auto.
  rewrite <- (app_nil_r w2). constructor; auto. constructor.
Qed.

(** every tree has a value *)
Lemma trees_evals : covers rules maps ->
  (forall X v t, tree_of rules X v t -> forall w, map tk_ty w = v -> exists it, evals rules maps X w it) /\
  (forall Xs v ts, trees_of rules Xs v ts -> forall w, map tk_ty w = v -> exists its, evals_seq rules maps Xs w its).
Proof.
  intros C. apply tree_of_mut.
  - intros t Ht w E. destruct w as [|tok [|? ?]]; simpl in E; try discriminate. injection E as <-.
    exists tok. now constructor.
  - intros A i rhs v cs Hp _ IH w E. destruct (IH w E) as (its & Hits).
    destruct (C _ _ _ Hp) as (fs & f & E1 & E2). eexists. econstructor; eauto.
  - intros w E. destruct w; try discriminate. exists []. constructor.
  - intros X Xs v1 v2 t ts _ IH1 _ IH2 w E.
    apply map_eq_app in E as (w1 & w2 & -> & E1 & E2).
    destruct (IH1 _ E1) as (it & H1). destruct (IH2 _ E2) as (its & H2).
    exists (it :: its). now constructor.
Qed.

Lemma derives_evals Xs w : covers rules maps -> derives Xs (map tk_ty w) -> Forall term (map tk_ty w) ->
  exists its, evals_seq rules maps Xs w its.
Proof.
  intros C D F. destruct (derives_trees _ _ D F) as (ts & Hts).
  eapply (proj2 (trees_evals C)); eauto.
Qed.
End Values.

(** ** left corners *)
Definition noempty : Prop := forall A i rhs, prod_at A i rhs -> rhs <> [].

Lemma derives_nonempty u w : noempty -> derives u w -> length u <= length w.
Proof.
  intros NE. induction 1 as [|u v w Hr Hd IH]; auto.
  destruct Hr as [a A b i rhs Hp]. apply NE in Hp. rewrite !app_length in *. simpl.
  destruct rhs; [congruence|]. simpl in IH. lia.
Qed.

Inductive lcorner : T -> T -> Prop :=
| lc_refl X : lcorner X X
| lc_step A i x v t : prod_at A i (x :: v) -> lcorner x t -> lcorner A t.

Lemma lcorner_derives X t : lcorner X t -> exists v, derives [X] (t :: v).
Proof.
  induction 1 as [X|A i x v t Hp _ (v' & IH)].
  - exists []. constructor.
  - exists (v' ++ v). eapply derives_trans; [eapply derives_prod; eauto|].
    apply (derives_app [x] (t :: v') v v); auto. constructor.
Qed.

Lemma derives_lcorner u t v : noempty -> derives u (t :: v) -> exists X u', u = X :: u' /\ lcorner X t.
Proof.
  intros NE. remember (t :: v) as w eqn:Ew. intros H. revert t v Ew.
  induction H as [w|u x w Hr Hd IH]; intros t v ->.
  - exists t, v. split; auto. constructor.
  - destruct (IH _ _ eq_refl) as (X & u' & -> & L). inversion Hr as [a A b i rhs Hp Ea Eb].
    destruct a as [|y a]; simpl in *.
    + exists A, b. split; auto. pose proof (NE _ _ _ Hp). destruct rhs as [|z rhs]; [congruence|].
      injection Eb as -> E. econstructor; eauto.
    + injection Eb as -> E. eauto.
Qed.

Lemma first_lcorner X t : noempty -> (first_spec rules X t <-> term t /\ lcorner X t).
Proof.
  intros NE. split.
  - intros (Ht & v & D). split; auto. apply derives_lcorner in D as (Y & u' & E & L); auto.
    injection E as <- <-. auto.
  - intros (Ht & L). split; auto. now apply lcorner_derives.
Qed.

Lemma first_term X t : term X -> (first_spec rules X t <-> t = X).
Proof.
  intros HX. split.
  - intros (Ht & v & D). apply derives_terms in D; auto. congruence.
  - intros ->. split; auto. exists []. constructor.
Qed.

End SpecP.

Lemma grammar_map_wf {T} {OT : Ord T} (l : list (T * list (list T))) : wf_rules (grammar_map l).
Proof.
  unfold grammar_map, wf_rules.
  assert (G : forall m : rulemap T, 
    (msorted m /\ forall A r, bm_get A m = Some r -> r_name r = A /\ exists l, r_prods r = enum_from 0 l) ->
    let m' := fold_left (fun m e => bm_insert (fst e) (rule_new (fst e) (snd e)) m) l m in
    msorted m' /\ forall A r, bm_get A m' = Some r -> r_name r = A /\ exists l, r_prods r = enum_from 0 l).
  { induction l as [|[A ps] l IH]; simpl; intros m H; auto. apply IH. destruct H as [Hs Hm]. split.
    - now apply bm_insert_sorted.
    - intros B r. rewrite bm_get_insert. destruct (eqb_spec B A) as [->|N]; auto.
      intros [= <-]. simpl. split; eauto. }
  apply G. split; [exact I|]. intros A r E. discriminate.
Qed.
