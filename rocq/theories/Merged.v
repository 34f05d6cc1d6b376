(** [Parser::merged] and [Lalr::without_look] (C29). *)
From Coq Require Import List Bool Arith Lia.
From Verif Require Import BTree Model Base Spec SpecP GrammarP FirstFollow Closure.
Import ListNotations.

Section Merged.
Context {T : Type} {OT : Ord T}.
Implicit Types (s m : state T) (p q b : position T).

Lemma body_eq_iff p q : body_eq p q = true <-> no_look p = no_look q.
Proof.
  unfold body_eq, no_look. rewrite !andb_true_iff, Nat.eqb_eq, !eqb_eq. destruct p as [A pr k l], q as [A' pr' k' l']. simpl.
  split; [intros [[-> ->] ->]; auto|intros [= -> -> ->]; auto].
Qed.

Lemma no_look_idem p : no_look (no_look p) = no_look p.
Proof. reflexivity. Qed.

Lemma no_look_set p l : no_look (mkPos (p_rule p) (p_seq p) (p_point p) l) = no_look p.
Proof. reflexivity. Qed.

Lemma same_look p q : no_look p = no_look q -> p_look p = p_look q -> p = q.
Proof. destruct p, q. unfold no_look. simpl. congruence. Qed.

(** [m] is [s] with the lookaheads of equal bodies joined *)
Record merged_of s m : Prop := {
  mo_sorted : sorted m;
  mo_one : forall p q, In p m -> In q m -> no_look p = no_look q -> p = q;
  mo_body : forall b, (exists p, In p m /\ no_look p = b) <-> (exists p, In p s /\ no_look p = b);
  mo_look : forall p t, In p m -> (In t (p_look p) <-> exists q, In q s /\ no_look q = no_look p /\ In t (p_look q));
  mo_looks : (forall p, In p s -> sorted (p_look p)) -> forall p, In p m -> sorted (p_look p)
}.

Lemma merge_into_spec keys new st : incl keys new -> sorted new ->
  (forall p q, In p new -> In q new -> no_look p = no_look q -> p = q) ->
  (forall p, In p new -> no_look p = no_look st -> In p keys) ->
  (exists key, In key new /\ no_look key = no_look st /\
     merge_into keys new st = bs_insert (mkPos (p_rule st) (p_seq st) (p_point st) (bs_extend (p_look st) (p_look key))) (bs_remove key new)) \/
  ((forall p, In p new -> no_look p <> no_look st) /\ merge_into keys new st = bs_insert st new).
Proof.
  intros Hi Hs Hone. induction keys as [|key keys IH]; intros Hk; simpl.
  - right. split; [|reflexivity]. intros p Hp E. exact (Hk p Hp E).
  - destruct (body_eq key st) eqn:E.
    + left. exists key. split; [apply Hi; now left|]. split; [now apply body_eq_iff|]. reflexivity.
    + apply IH.
      * intros z Hz. apply Hi. now right.
      * intros p Hp Ep. destruct (Hk p Hp Ep) as [<-|]; auto. apply body_eq_iff in Ep. congruence.
Qed.

Lemma merged_spec s : merged_of s (merged s).
Proof.
  unfold merged. apply (fold_left_ind _ (fun done m => merged_of done m)).
  - constructor.
    + exact I.
    + intros p q [].
    + intros b. split; intros (p & [] & _).
    + intros p t [].
    + intros _ p [].
  - intros done st _ new _ H.
    destruct (merge_into_spec new new st) as [(key & Hk & Ek & ->)|(Hn & ->)];
      auto using incl_refl, (mo_sorted _ _ H), (mo_one _ _ H).
    + set (u := mkPos (p_rule st) (p_seq st) (p_point st) (bs_extend (p_look st) (p_look key))).
      assert (no_look u = no_look st) as Eu by reflexivity.
      assert (forall p, In p (bs_insert u (bs_remove key new)) <-> p = u \/ (In p new /\ no_look p <> no_look st)) as Hin.
      { intros p. rewrite bs_insert_in, bs_remove_in. split.
        - intros [H1|[H1 H2]]; auto. right. split; auto. intros E. apply H2. apply (mo_one _ _ H); congruence.
        - intros [H1|[H1 H2]]; auto. right. split; auto. intros ->. auto. }
      constructor.
      * apply bs_insert_sorted, bs_remove_sorted, (mo_sorted _ _ H).
      * intros p q Hp Hq E. apply Hin in Hp as [->|[Hp Np]], Hq as [->|[Hq Nq]]; auto; try congruence. apply (mo_one _ _ H); auto.
      * intros b. split.
        -- intros (p & Hp & <-). apply Hin in Hp as [->|[Hp Np]].
           ++ exists st. rewrite in_app_iff. simpl. auto.
           ++ destruct (proj1 (mo_body _ _ H (no_look p))) as (q & Hq & Eq); eauto. exists q. rewrite in_app_iff. auto.
        -- intros (p & Hp & <-). destruct (ord_dec (no_look p) (no_look st)) as [E|N].
           ++ exists u. split; [apply Hin; auto|congruence].
           ++ apply in_app_iff in Hp as [Hp|[<-|[]]]; [|congruence].
              destruct (proj2 (mo_body _ _ H (no_look p))) as (q & Hq & Eq); eauto. exists q. split; auto. apply Hin. right. split; congruence.
      * intros p t Hp. apply Hin in Hp as [->|[Hp Np]].
        -- subst u. simpl p_look. rewrite bs_extend_in, (mo_look _ _ H key t Hk). rewrite no_look_set. split.
           ++ intros [Ht|(q & H1 & H2 & H3)].
              ** exists st. rewrite in_app_iff. simpl. auto.
              ** exists q. rewrite in_app_iff. split; auto. split; congruence.
           ++ intros (q & H1 & H2 & H3). apply in_app_iff in H1 as [H1|[<-|[]]]; auto. right. exists q. split; auto. split; congruence.
        -- rewrite (mo_look _ _ H p t Hp). split.
           ++ intros (q & H1 & H2 & H3). exists q. rewrite in_app_iff. auto.
           ++ intros (q & H1 & H2 & H3). apply in_app_iff in H1 as [H1|[<-|[]]]; [|congruence]. eauto.
      * intros Hl p Hp. apply Hin in Hp as [->|[Hp Np]].
        -- subst u. simpl. apply bs_extend_sorted. apply Hl. rewrite in_app_iff. simpl. auto.
        -- eapply (mo_looks _ _ H); eauto. intros q Hq. apply Hl. rewrite in_app_iff. auto.
    + constructor.
      * apply bs_insert_sorted, (mo_sorted _ _ H).
      * intros p q Hp Hq E. apply bs_insert_in in Hp as [->|Hp], Hq as [->|Hq]; auto.
        -- exfalso. apply (Hn q); auto.
        -- exfalso. apply (Hn p); auto.
        -- apply (mo_one _ _ H); auto.
      * intros b. split.
        -- intros (p & Hp & <-). apply bs_insert_in in Hp as [->|Hp].
           ++ exists st. rewrite in_app_iff. simpl. auto.
           ++ destruct (proj1 (mo_body _ _ H (no_look p))) as (q & Hq & Eq); eauto. exists q. rewrite in_app_iff. auto.
        -- intros (p & Hp & <-). apply in_app_iff in Hp as [Hp|[<-|[]]].
           ++ destruct (proj2 (mo_body _ _ H (no_look p))) as (q & Hq & Eq); eauto. exists q. rewrite bs_insert_in. auto.
           ++ exists st. rewrite bs_insert_in. auto.
      * intros p t Hp. apply bs_insert_in in Hp as [->|Hp].
        -- split.
           ++ intros Ht. exists st. rewrite in_app_iff. simpl. auto.
           ++ intros (q & H1 & H2 & H3). apply in_app_iff in H1 as [H1|[<-|[]]]; auto. exfalso.
              destruct (proj2 (mo_body _ _ H (no_look q))) as (q' & Hq & Eq); eauto. apply (Hn q'); congruence.
        -- rewrite (mo_look _ _ H p t Hp). split.
           ++ intros (q & H1 & H2 & H3). exists q. rewrite in_app_iff. auto.
           ++ intros (q & H1 & H2 & H3). apply in_app_iff in H1 as [H1|[<-|[]]]; [eauto|]. exfalso. apply (Hn p); auto.
      * intros Hl p Hp. apply bs_insert_in in Hp as [->|Hp].
        -- apply Hl. rewrite in_app_iff. simpl. auto.
        -- eapply (mo_looks _ _ H); eauto. intros q Hq. apply Hl. rewrite in_app_iff. auto.
Qed.

(** such an [m] depends only on the bodies and the (body, lookahead) pairs of [s] *)
Lemma merged_ext s s' :
  (forall p, In p s -> sorted (p_look p)) -> (forall p, In p s' -> sorted (p_look p)) ->
  (forall b, (exists p, In p s /\ no_look p = b) <-> (exists p, In p s' /\ no_look p = b)) ->
  (forall b t, (exists p, In p s /\ no_look p = b /\ In t (p_look p)) <-> (exists p, In p s' /\ no_look p = b /\ In t (p_look p))) ->
  merged s = merged s'.
Proof.
  intros L L' Hb Ht.
  assert (forall s s', (forall p, In p s -> sorted (p_look p)) -> (forall p, In p s' -> sorted (p_look p)) ->
    (forall b, (exists p, In p s /\ no_look p = b) <-> (exists p, In p s' /\ no_look p = b)) ->
    (forall b t, (exists p, In p s /\ no_look p = b /\ In t (p_look p)) <-> (exists p, In p s' /\ no_look p = b /\ In t (p_look p))) ->
    forall p, In p (merged s) -> In p (merged s')) as G.
  { clear. intros s s' L L' Hb Ht p Hp. pose proof (merged_spec s) as M. pose proof (merged_spec s') as M'.
    destruct (proj2 (mo_body _ _ M' (no_look p))) as (q & Hq & Eq).
    { apply Hb. apply (mo_body _ _ M). eauto. }
    replace p with q; auto. apply same_look; auto. apply sorted_ext.
    - eapply (mo_looks _ _ M'); eauto.
    - eapply (mo_looks _ _ M); eauto.
    - intros t. rewrite (mo_look _ _ M' q t Hq), (mo_look _ _ M p t Hp), Eq. symmetry. apply Ht. }
  apply sorted_ext.
  - apply (mo_sorted _ _ (merged_spec s)).
  - apply (mo_sorted _ _ (merged_spec s')).
  - intros p. split; apply G; auto; intros; symmetry; auto.
Qed.

Lemma merged_idem s : (forall p, In p s -> sorted (p_look p)) -> merged (merged s) = merged s.
Proof.
  intros L. pose proof (merged_spec s) as M. apply merged_ext; auto.
  - apply (mo_looks _ _ M); auto.
  - intros b. apply (mo_body _ _ M).
  - intros b t. split.
    + intros (p & Hp & Eb & Ht). apply (mo_look _ _ M) in Ht as (q & H1 & H2 & H3); auto. exists q. split; auto. split; congruence.
    + intros (p & Hp & Eb & Ht). destruct (proj2 (mo_body _ _ M (no_look p))) as (q & Hq & Eq); eauto.
      exists q. split; auto. split; [congruence|]. apply (mo_look _ _ M); eauto.
Qed.

(** ** [without_look] *)
Lemma without_look_in s b : In b (without_look s) <-> exists p, In p s /\ no_look p = b.
Proof.
  unfold without_look. rewrite bs_of_list_in, in_map_iff. split; intros (p & H1 & H2); eauto.
Qed.

Lemma without_look_sorted s : sorted (without_look s).
Proof. apply bs_of_list_sorted. Qed.

Lemma without_look_ext s s' :
  (forall b, (exists p, In p s /\ no_look p = b) <-> (exists p, In p s' /\ no_look p = b)) -> without_look s = without_look s'.
Proof.
  intros H. apply sorted_ext; auto using without_look_sorted. intros b. rewrite !without_look_in. apply H.
Qed.

Lemma without_look_eq s s' : without_look s = without_look s' ->
  forall b, (exists p, In p s /\ no_look p = b) <-> (exists p, In p s' /\ no_look p = b).
Proof. intros E b. rewrite <- !without_look_in, E. reflexivity. Qed.

Lemma without_look_nil s : without_look s = [] <-> s = [].
Proof.
  split; [|intros ->; reflexivity]. destruct s as [|p s]; auto. intros E.
  assert (In (no_look p) (without_look (p :: s))) as H by (apply without_look_in; exists p; simpl; auto).
  rewrite E in H. destruct H.
Qed.

Lemma without_look_idem s : without_look (without_look s) = without_look s.
Proof.
  apply without_look_ext. intros b. split.
  - intros (p & Hp & Eb). apply without_look_in in Hp as (q & Hq & <-). rewrite no_look_idem in Eb. eauto.
  - intros (p & Hp & Eb). exists (no_look p). rewrite no_look_idem. split; auto. apply without_look_in. eauto.
Qed.

Lemma without_look_merged s : without_look (merged s) = without_look s.
Proof. apply without_look_ext, (mo_body _ _ (merged_spec s)). Qed.

Lemma without_look_app s s' : without_look s = without_look s' -> without_look (bs_of_list (s ++ s')) = without_look s'.
Proof.
  intros E. apply without_look_ext. intros b. split.
  - intros (p & Hp & Eb). apply bs_of_list_in, in_app_iff in Hp as [Hp|Hp]; eauto.
    apply (without_look_eq _ _ E). eauto.
  - intros (p & Hp & Eb). exists p. rewrite bs_of_list_in, in_app_iff. auto.
Qed.

Lemma ptop_no_look p : ptop (no_look p) = ptop p.
Proof. reflexivity. Qed.

Lemma adv_no_look p : adv (no_look p) = no_look (adv p).
Proof. reflexivity. Qed.

Lemma without_look_filter s X : without_look (sym_filter s X) = sym_filter (without_look s) X.
Proof.
  apply sorted_ext; auto using without_look_sorted, sym_filter_sorted. intros b.
  rewrite without_look_in, sym_filter_in. split.
  - intros (p & Hp & <-). apply sym_filter_in in Hp as (q & Hq & Et & ->). exists (no_look q).
    rewrite without_look_in, ptop_no_look, adv_no_look. split; eauto.
  - intros (p & Hp & Et & ->). apply without_look_in in Hp as (q & Hq & <-). exists (adv q).
    rewrite sym_filter_in, adv_no_look. split; auto. exists q. auto.
Qed.

(** the bodies of a closure are the LR(0) closure of the bodies *)
Lemma clo_bodies g lk s b : (exists p, clo g lk s p /\ no_look p = b) <-> clo g slr_lk (without_look s) b.
Proof.
  split.
  - intros (p & Hp & <-). induction Hp as [p Hp|p q _ IH (B & r & pr & Et & Hr & Hi & ->)].
    + constructor. apply without_look_in. eauto.
    + eapply clo_yield; [exact IH|]. exists B, r, pr. rewrite ptop_no_look. auto.
  - induction 1 as [b Hb|b c _ (p & Hp & Eb) (B & r & pr & Et & Hr & Hi & ->)].
    + apply without_look_in in Hb as (p & Hp & <-). exists p. split; auto. now constructor.
    + exists (mkPos B pr 0 (lk p)). split; [|reflexivity]. eapply clo_yield; [exact Hp|]. exists B, r, pr.
      rewrite <- ptop_no_look, Eb. auto.
Qed.
End Merged.
