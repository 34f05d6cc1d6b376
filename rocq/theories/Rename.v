(** Renaming symbols and reordering alternatives (C93, C94). *)
From Coq Require Import List Bool Arith Lia.
From Verif Require Import BTree Model Base Spec SpecP GrammarP Interface Wrap Final Export LR1Spec HandleF RenameSpec.
Import ListNotations.

Section Rename.
Context {T1 T2 : Type} {O1 : Ord T1} {O2 : Ord T2}.
Variables (f : T1 -> T2) (m : T1 -> nat -> nat) (rules1 : rulemap T1) (rules2 : rulemap T2).
Hypothesis R : renames f m rules1 rules2.

Lemma map_inj u v : map f u = map f v -> u = v.
Proof.
  revert v. induction u as [|x u IH]; intros [|y v] E; try discriminate; auto. injection E as E1 E2.
  apply (rn_inj _ _ _ _ R) in E1. rewrite E1, (IH v); auto.
Qed.

Lemma map_app_inv u a b : map f u = a ++ b -> exists a1 b1, u = a1 ++ b1 /\ a = map f a1 /\ b = map f b1.
Proof. intros E. apply map_eq_app in E as (a1 & b1 & -> & <- & <-). eauto. Qed.

Lemma map_cons_inv u A w : map f u = A :: w -> exists A1 w1, u = A1 :: w1 /\ A = f A1 /\ w = map f w1.
Proof. destruct u as [|x u]; intros E; [discriminate|]. injection E as <- <-. eauto. Qed.

Lemma nonterm_f A : nonterm rules1 A <-> nonterm rules2 (f A).
Proof.
  split; [apply (rn_nonterm _ _ _ _ R)|]. intros H. apply (rn_nonterm_back _ _ _ _ R) in H as (B & E & H).
  apply (rn_inj _ _ _ _ R) in E. now subst.
Qed.

Lemma term_f x : term rules1 x <-> term rules2 (f x).
Proof. unfold term. now rewrite nonterm_f. Qed.

Lemma terms_f w : Forall (term rules1) w <-> Forall (term rules2) (map f w).
Proof.
  induction w as [|x w IH]; simpl; [split; constructor|]. split; intros H; inversion H; subst; constructor; try (now apply term_f); now apply IH.
Qed.

Lemma prod_nonterm2 B j rhs : prod_at rules2 B j rhs -> exists A, B = f A.
Proof. intros (r & k & E & _). destruct (rn_nonterm_back _ _ _ _ R B) as (A & E' & _); [now exists r|]. eauto. Qed.

Lemma prod_back B j rhs' : prod_at rules2 B j rhs' -> exists A i rhs, B = f A /\ j = m A i /\ rhs' = map f rhs /\ prod_at rules1 A i rhs.
Proof.
  intros H. destruct (prod_nonterm2 _ _ _ H) as (A & ->). destruct (rn_prod_back _ _ _ _ R _ _ _ H) as (i & rhs & H1 & H2 & H3). exists A, i, rhs. auto.
Qed.

Lemma rm_fwd u v : rm rules1 u v -> rm rules2 (map f u) (map f v).
Proof.
  intros [a A i rhs w Hp Hw]. rewrite !map_app. cbn [map]. econstructor; [apply (rn_prod _ _ _ _ R); eauto|now apply terms_f].
Qed.

Lemma rm_back u v' : rm rules2 (map f u) v' -> exists v, v' = map f v /\ rm rules1 u v.
Proof.
  intros H. remember (map f u) as u' eqn:E. destruct H as [a' A' j rhs' w' Hp Hw]. symmetry in E.
  apply map_app_inv in E as (a & b & -> & -> & E). symmetry in E. apply map_cons_inv in E as (A & w & -> & -> & ->).
  destruct (rn_prod_back _ _ _ _ R _ _ _ Hp) as (i & rhs & -> & -> & Hp1).
  exists (a ++ rhs ++ w). split; [now rewrite !map_app|]. econstructor; eauto. now apply terms_f.
Qed.

Lemma rms_fwd u v : rms rules1 u v -> rms rules2 (map f u) (map f v).
Proof. induction 1; [constructor|]. econstructor; eauto. now apply rm_fwd. Qed.

Lemma rms_back u v' : rms rules2 (map f u) v' -> exists v, v' = map f v /\ rms rules1 u v.
Proof.
  induction 1 as [|v' w' _ (v & -> & H1) H2]; [exists u; split; [auto|constructor]|].
  apply rm_back in H2 as (w & -> & H2). exists w. split; auto. econstructor; eauto.
Qed.

Lemma next_f eof w : next (f eof) (map f w) = f (next eof w).
Proof. destruct w; reflexivity. Qed.

Lemma LR1_f start eof : LR1 rules1 start eof <-> LR1 rules2 (f start) (f eof).
Proof.
  split; intros H.
  - intros a A i rhs w b B j rhs' x y H1 P1 F1 H2 P2 F2 E Fy En.
    apply (rms_back [start]) in H1 as (u & E1 & H1). symmetry in E1. apply map_app_inv in E1 as (a1 & b1 & -> & -> & E1).
    symmetry in E1. apply map_cons_inv in E1 as (A1 & w1 & -> & -> & ->).
    apply (rms_back [start]) in H2 as (u & E1 & H2). symmetry in E1. apply map_app_inv in E1 as (a2 & b2 & -> & -> & E1).
    symmetry in E1. apply map_cons_inv in E1 as (A2 & w2 & -> & -> & ->).
    destruct (rn_prod_back _ _ _ _ R _ _ _ P1) as (i1 & r1 & -> & -> & Q1). destruct (rn_prod_back _ _ _ _ R _ _ _ P2) as (i2 & r2 & -> & -> & Q2).
    rewrite <- !map_app in E. rewrite (app_assoc (map f a1)), <- (map_app f a1 r1) in E. apply map_app_inv in E as (c & y1 & E & Ec & ->). apply map_inj in Ec as <-.
    rewrite !next_f in En. apply (rn_inj _ _ _ _ R) in En.
    destruct (H a1 A1 i1 r1 w1 a2 A2 i2 r2 w2 y1) as (-> & -> & -> & ->); auto; try (now apply terms_f). now rewrite E, <- app_assoc.
  - intros a A i rhs w b B j rhs' x y H1 P1 F1 H2 P2 F2 E Fy En.
    apply rms_fwd in H1, H2. rewrite map_app in H1, H2. cbn [map] in H1, H2.
    destruct (H _ _ _ _ _ _ _ _ _ _ (map f y) H1 (rn_prod _ _ _ _ R _ _ _ P1) (proj1 (terms_f _) F1) H2 (rn_prod _ _ _ _ R _ _ _ P2) (proj1 (terms_f _) F2)) as (E1 & E2 & E3 & E4).
    + rewrite <- !map_app. now rewrite E.
    + now apply terms_f.
    + rewrite !next_f. now rewrite En.
    + apply map_inj in E1, E4. apply (rn_inj _ _ _ _ R) in E2. subst. split; auto. split; auto. split; auto. eapply (rn_index _ _ _ _ R); eauto.
Qed.

(** ** derivations *)
Lemma derives_fwd u v : derives rules1 u v -> derives rules2 (map f u) (map f v).
Proof.
  induction 1 as [|u v w Hs _ IH]; [constructor|]. econstructor; [|exact IH]. destruct Hs as [a A b i rhs Hp].
  rewrite !map_app. cbn [map]. econstructor. apply (rn_prod _ _ _ _ R). eauto.
Qed.

Lemma derives_back u v' : derives rules2 (map f u) v' -> exists v, v' = map f v /\ derives rules1 u v.
Proof.
  intros H. remember (map f u) as u' eqn:E. revert u E. induction H as [u'|u' v' w' Hs _ IH]; intros u ->; [exists u; split; [auto|constructor]|].
  remember (map f u) as u' eqn:E. destruct Hs as [a' A' b' j rhs' Hp]. symmetry in E.
  apply map_app_inv in E as (a & b & -> & -> & E). symmetry in E. apply map_cons_inv in E as (A & w & -> & -> & ->).
  destruct (rn_prod_back _ _ _ _ R _ _ _ Hp) as (i & rhs & -> & -> & Hp1).
  destruct (IH (a ++ rhs ++ w)) as (v & -> & Hv); [now rewrite !map_app|]. exists v. split; auto. econstructor; [econstructor|]; eauto.
Qed.

Lemma sentence_f S w : sentence rules1 S w <-> sentence rules2 (f S) (map f w).
Proof.
  unfold sentence. rewrite <- terms_f. split; intros [H1 H2]; split; auto.
  - exact (derives_fwd _ _ H1).
  - apply (derives_back [S]) in H1 as (v & E & H1). apply map_inj in E as ->. auto.
Qed.

Lemma productive_f : productive rules1 -> productive rules2.
Proof.
  intros H B HB. apply (rn_nonterm_back _ _ _ _ R) in HB as (A & -> & HA). destruct (H A HA) as (w & H1 & H2).
  exists (map f w). split; [exact (derives_fwd _ _ H1)|now apply terms_f].
Qed.

Lemma productive_b : productive rules2 -> productive rules1.
Proof.
  intros H A HA. apply nonterm_f in HA. destruct (H _ HA) as (w' & H1 & H2). apply (derives_back [A]) in H1 as (w & -> & H1).
  exists w. split; auto. now apply terms_f.
Qed.

Lemma fresh_f S : start_fresh rules1 S <-> start_fresh rules2 (f S).
Proof.
  split.
  - intros H B j rhs' Hp. destruct (prod_back _ _ _ Hp) as (A & i & rhs & -> & -> & -> & Hp1). intros Hi. apply in_map_iff in Hi as (x & E & Hx).
    apply (rn_inj _ _ _ _ R) in E as ->. exact (H _ _ _ Hp1 Hx).
  - intros H A i rhs Hp Hi. apply (H _ _ _ (rn_prod _ _ _ _ R _ _ _ Hp)). now apply in_map.
Qed.

(** ** SLR(1) *)
Lemma first_fwd X t : first_spec rules1 X t -> first_spec rules2 (f X) (f t).
Proof. intros [H1 (v & H2)]. split; [now apply term_f|]. exists (map f v). exact (derives_fwd _ _ H2). Qed.

Lemma first_back X t' : first_spec rules2 (f X) t' -> exists t, t' = f t /\ first_spec rules1 X t.
Proof.
  intros [H1 (v' & H2)]. apply (derives_back [X]) in H2 as (v & E & H2). symmetry in E. apply map_cons_inv in E as (t & v1 & -> & -> & ->).
  exists t. split; auto. split; [now apply term_f|]. eauto.
Qed.

Lemma follow_fwd S eof A t : follow_rules rules1 S eof A t -> follow_rules rules2 (f S) (f eof) (f A) (f t).
Proof.
  induction 1 as [|B i u A Y v t Hp HA Hf|B i u A t Hp HA _ IH].
  - constructor.
  - apply (rn_prod _ _ _ _ R) in Hp. rewrite map_app in Hp. cbn [map] in Hp. eapply fr_first; eauto; [now apply nonterm_f|now apply first_fwd].
  - apply (rn_prod _ _ _ _ R) in Hp. rewrite map_app in Hp. cbn [map] in Hp. eapply fr_last; eauto. now apply nonterm_f.
Qed.

Lemma follow_back S eof A' t' : follow_rules rules2 (f S) (f eof) A' t' -> exists A t, A' = f A /\ t' = f t /\ follow_rules rules1 S eof A t.
Proof.
  induction 1 as [|B i u A Y v t Hp HA Hf|B i u A t Hp HA _ IH].
  - exists S, eof. split; auto. split; auto. constructor.
  - destruct (prod_back _ _ _ Hp) as (B1 & i1 & rhs & -> & -> & E & Hp1). symmetry in E. apply map_app_inv in E as (u1 & v1 & -> & -> & E).
    symmetry in E. apply map_cons_inv in E as (A1 & v2 & -> & -> & E). symmetry in E. apply map_cons_inv in E as (Y1 & v3 & -> & -> & ->).
    apply first_back in Hf as (t1 & -> & Hf). exists A1, t1. split; auto. split; auto. eapply fr_first; eauto. now apply nonterm_f.
  - destruct (prod_back _ _ _ Hp) as (B1 & i1 & rhs & -> & -> & E & Hp1). symmetry in E. apply map_app_inv in E as (u1 & v1 & -> & -> & E).
    symmetry in E. apply map_cons_inv in E as (A1 & v2 & -> & -> & E). destruct v2; [|discriminate].
    destruct IH as (B2 & t1 & E2 & -> & Hf). apply (rn_inj _ _ _ _ R) in E2 as <-. exists A1, t1. split; auto. split; auto. eapply fr_last; eauto. now apply nonterm_f.
Qed.

Lemma valid_fwd S pre A i u v : valid_after rules1 S pre A i u v -> valid_after rules2 (f S) (map f pre) (f A) (m A i) (map f u) (map f v).
Proof.
  intros [H1 (a & w & H2 & H3 & ->)]. split; [rewrite <- map_app; now apply (rn_prod _ _ _ _ R)|].
  exists (map f a), (map f w). apply rms_fwd in H2. rewrite map_app in H2. split; auto. split; [now apply terms_f|apply map_app].
Qed.

Lemma valid_back S pre A j u' v' : valid_after rules2 (f S) pre A j u' v' -> exists pre1 A1 i u v,
  pre = map f pre1 /\ A = f A1 /\ j = m A1 i /\ u' = map f u /\ v' = map f v /\ valid_after rules1 S pre1 A1 i u v.
Proof.
  intros [H1 (a & w & H2 & H3 & ->)]. apply (rms_back [S]) in H2 as (z & E & H2). symmetry in E.
  apply map_app_inv in E as (a1 & b1 & -> & -> & E). symmetry in E. apply map_cons_inv in E as (A1 & w1 & -> & -> & ->).
  destruct (rn_prod_back _ _ _ _ R _ _ _ H1) as (i & rhs & -> & E & Hp). symmetry in E. apply map_app_inv in E as (u & v & -> & -> & ->).
  exists (a1 ++ u), A1, i, u, v. split; [now rewrite map_app|]. do 4 (split; [auto; fail|]). split; [exact Hp|]. exists a1, w1. split; auto. split; auto. now apply terms_f.
Qed.

Lemma map_nil_inv u : [] = map f u -> u = [].
Proof. destruct u; [auto|discriminate]. Qed.

Lemma SLR1_f start eof : SLR1 rules1 start eof <-> SLR1 rules2 (f start) (f eof).
Proof.
  split; intros [Ha Hb]; split.
  - intros pre A i u B j v t V1 V2 F1 F2 Ht.
    apply valid_back in V1 as (p1 & A1 & i1 & u1 & v1 & -> & -> & -> & -> & E1 & V1). apply map_nil_inv in E1 as ->.
    apply valid_back in V2 as (p2 & A2 & i2 & u2 & v2 & E2 & -> & -> & -> & E3 & V2). apply map_nil_inv in E3 as ->. apply map_inj in E2 as <-.
    apply follow_back in F1 as (X1 & t1 & E1 & -> & F1). apply (rn_inj _ _ _ _ R) in E1 as <-.
    apply follow_back in F2 as (X2 & t2 & E1 & E2 & F2). apply (rn_inj _ _ _ _ R) in E1 as <-. apply (rn_inj _ _ _ _ R) in E2 as <-.
    destruct (Ha _ _ _ _ _ _ _ _ V1 V2 F1 F2) as [-> ->]; auto. now apply term_f.
  - intros pre A i u B j v t v' V1 V2 Ht F1.
    apply valid_back in V1 as (p1 & A1 & i1 & u1 & v1 & -> & -> & -> & -> & E1 & V1). apply map_nil_inv in E1 as ->.
    apply valid_back in V2 as (p2 & A2 & i2 & u2 & v2 & E2 & -> & -> & -> & E3 & V2). symmetry in E3. apply map_cons_inv in E3 as (t2 & v3 & -> & -> & ->). apply map_inj in E2 as <-.
    apply follow_back in F1 as (X1 & t1 & E1 & E2 & F1). apply (rn_inj _ _ _ _ R) in E1 as <-. apply (rn_inj _ _ _ _ R) in E2 as <-.
    apply (Hb _ _ _ _ _ _ _ _ _ V1 V2); auto. now apply term_f.
  - intros pre A i u B j v t V1 V2 F1 F2 Ht. pose proof (proj1 V1) as P1. pose proof (proj1 V2) as P2. apply valid_fwd in V1, V2. apply follow_fwd in F1, F2. apply term_f in Ht.
    destruct (Ha _ _ _ _ _ _ _ _ V1 V2 F1 F2 Ht) as [E1 E2]. apply (rn_inj _ _ _ _ R) in E1 as <-. split; auto. eapply (rn_index _ _ _ _ R); eauto.
  - intros pre A i u B j v t v' V1 V2 Ht F1. apply valid_fwd in V1, V2. apply follow_fwd in F1. apply term_f in Ht.
    exact (Hb _ _ _ _ _ _ _ _ _ V1 V2 Ht F1).
Qed.

(** ** values *)
Section Values.
Context {M : Type}.
Variables (maps1 : reductmap T1 M) (maps2 : reductmap T2 M).
Hypothesis S12 : same_reductors f m rules1 maps1 maps2.

Lemma evals_fwd : (forall X w it, evals rules1 maps1 X w it -> evals rules2 maps2 (f X) (map (retok f) w) (retok f it)) /\
  (forall Xs w its, evals_seq rules1 maps1 Xs w its -> evals_seq rules2 maps2 (map f Xs) (map (retok f) w) (map (retok f) its)).
Proof.
  apply evals_mut.
  - intros tok H. apply (evals_tok rules2 maps2 (retok f tok)). now apply term_f.
  - intros A i rhs w its fs h Hp _ IH Hfs Hh. destruct (S12 _ _ _ Hp) as (fs1 & h1 & fs2 & h2 & E1 & E2 & E3 & E4 & E5).
    assert (h1 = h) as -> by congruence. unfold retok at 2. cbn [tk_item tk_ty]. rewrite <- E5.
    eapply evals_rule; eauto. now apply (rn_prod _ _ _ _ R).
  - constructor.
  - intros X Xs w1 w2 it its _ H1 _ H2. rewrite map_app. cbn [map]. now constructor.
Qed.

Lemma retok_inj (a b : token T1 M) : retok f a = retok f b -> a = b.
Proof. destruct a, b. unfold retok. cbn. intros [= -> E]. apply (rn_inj _ _ _ _ R) in E. now subst. Qed.

Lemma evals_back : (forall X' w' it', evals rules2 maps2 X' w' it' -> forall X w, X' = f X -> w' = map (retok f) w ->
     exists it, it' = retok f it /\ evals rules1 maps1 X w it) /\
  (forall Xs' w' its', evals_seq rules2 maps2 Xs' w' its' -> forall Xs w, Xs' = map f Xs -> w' = map (retok f) w ->
     exists its, its' = map (retok f) its /\ evals_seq rules1 maps1 Xs w its).
Proof.
  apply evals_mut.
  - intros tok H X w E1 E2. destruct w as [|t [|]]; try discriminate. injection E2 as ->. exists t. split; auto.
    cbn [retok tk_ty] in *. apply (rn_inj _ _ _ _ R) in E1 as <-. constructor. now apply term_f.
  - intros A' j rhs' w' its' fs h Hp _ IH Hfs Hh X w -> ->. destruct (rn_prod_back _ _ _ _ R _ _ _ Hp) as (i & rhs & -> & -> & Hp1).
    destruct (IH _ _ eq_refl eq_refl) as (its & -> & He). destruct (S12 _ _ _ Hp1) as (fs1 & h1 & fs2 & h2 & E1 & E2 & E3 & E4 & E5).
    assert (h2 = h) as -> by congruence. exists (mkTok (h1 its) X). split; [unfold retok at 2; cbn [tk_item tk_ty]; now rewrite E5|]. eapply evals_rule; eauto.
  - intros Xs w E1 E2. destruct Xs; [|discriminate]. destruct w; [|discriminate]. exists []. split; auto. constructor.
  - intros X' Xs' w1' w2' it' its' _ H1 _ H2 Xs w E1 E2. symmetry in E1. apply map_cons_inv in E1 as (X & Xs1 & -> & -> & ->).
    symmetry in E2. apply map_eq_app in E2 as (w1 & w2 & -> & <- & <-).
    destruct (H1 _ _ eq_refl eq_refl) as (it & -> & I1). destruct (H2 _ _ eq_refl eq_refl) as (its & -> & I2).
    exists (it :: its). split; auto. now constructor.
Qed.
End Values.

(** *** C93 *)
Variables (start eof : T1) (g1 : grammar T1) (g2 : grammar T2).
Hypothesis W1 : wf_rules rules1.
Hypothesis W2 : wf_rules rules2.
Hypothesis G1 : grammar_new true start rules1 eof = Val g1.
Hypothesis G2 : grammar_new true (f start) rules2 (f eof) = Val g2.

Lemma renamed_parse k t1 t2 : makes k true g1 t1 -> makes k true g2 t2 -> k <> LALR \/ carries t1 -> k <> LALR \/ carries t2 -> term rules1 eof -> start_fresh rules1 start ->
  conflicts (t_actions t1) = [] -> conflicts (t_actions t2) = [] ->
  (forall input, validates t1 input true <-> validates t2 (map (retok f) input) true) /\
  (forall M (maps1 : reductmap T1 M) (maps2 : reductmap T2 M) input v, same_reductors f m rules1 maps1 maps2 ->
     (parses t1 input maps1 (POk v) <-> parses t2 (map (retok f) input) maps2 (POk v))).
Proof.
  intros M1 M2 K1 K2 He Hf Hc1 Hc2.
  pose proof (proj1 (term_f eof) He) as He2. pose proof (proj1 (fresh_f start) Hf) as Hf2.
  assert (Ty : forall M (w : list (token T1 M)), map tk_ty (map (retok f) w) = map f (map tk_ty w)).
  { intros M w. rewrite !map_map. reflexivity. }
  split.
  - intros input. destruct (exact_language _ _ _ _ _ W1 G1 _ _ M1 K1 He Hf (or_introl eq_refl) Hc1) as [_ L1].
    destruct (exact_language _ _ _ _ _ W2 G2 _ _ M2 K2 He2 Hf2 (or_introl eq_refl) Hc2) as [_ L2].
    rewrite L1, L2, Ty. apply sentence_f.
  - intros M maps1 maps2 input v Hs.
    rewrite (exact_value _ _ _ _ _ W1 G1 _ _ M1 K1 He Hf Hc1), (exact_value _ _ _ _ _ W2 G2 _ _ M2 K2 He2 Hf2 Hc2).
    assert (m start 0 = 0) as E0.
    { destruct (Wp0 _ _ _ _ _ W1 G1) as (p1 & _ & P1 & E1). rewrite ?E1 in P1. apply (rn_prod _ _ _ _ R) in P1. exact (debug_single _ _ _ _ _ G2 eq_refl _ _ P1). }
    split.
    + intros (rhs & its & it & H1 & H2 & ->). apply (proj2 (evals_fwd _ _ Hs)) in H2. rewrite map_app in H2. apply (rn_prod _ _ _ _ R) in H1. rewrite E0 in H1.
      exists (map f rhs), (map (retok f) its), (retok f it). auto.
    + intros (rhs' & its' & it' & H1 & H2 & ->). destruct (rn_prod_back _ _ _ _ R _ _ _ H1) as (i & rhs & E1 & -> & Hp1).
      assert (i = 0) as -> by exact (debug_single _ _ _ _ _ G1 eq_refl _ _ Hp1).
      destruct (proj2 (evals_back _ _ Hs) _ _ _ H2 _ _ eq_refl eq_refl) as (its & E & H3). symmetry in E. apply map_eq_app in E as (i1 & i2 & -> & <- & E).
      destruct i2 as [|i2 [|]]; try discriminate. injection E as <-. exists rhs, i1, i2. auto.
Qed.

Lemma renamed k t1 t2 : makes k true g1 t1 -> makes k true g2 t2 -> k <> LALR -> term rules1 eof -> productive rules1 ->
  (conflicts (t_actions t1) = [] <-> conflicts (t_actions t2) = []) /\
  (start_fresh rules1 start -> conflicts (t_actions t1) = [] ->
    (forall input, validates t1 input true <-> validates t2 (map (retok f) input) true) /\
    (forall M (maps1 : reductmap T1 M) (maps2 : reductmap T2 M) input v, same_reductors f m rules1 maps1 maps2 ->
       (parses t1 input maps1 (POk v) <-> parses t2 (map (retok f) input) maps2 (POk v)))).
Proof.
  intros M1 M2 Nk He Hp. pose proof (proj1 (term_f eof) He) as He2. pose proof (productive_f Hp) as Hp2.
  assert (conflicts (t_actions t1) = [] <-> conflicts (t_actions t2) = []) as Hc.
  { destruct k; [| |congruence].
    - destruct (slr_SLR1 _ _ _ _ _ W1 G1 _ M1 He (or_introl eq_refl)) as [A1 B1]. destruct (slr_SLR1 _ _ _ _ _ W2 G2 _ M2 He2 (or_introl eq_refl)) as [A2 B2].
      pose proof (SLR1_f start eof). tauto.
    - destruct (clr_LR1 _ _ _ _ _ W1 G1 _ M1 He (or_introl eq_refl)) as [A1 B1]. destruct (clr_LR1 _ _ _ _ _ W2 G2 _ M2 He2 (or_introl eq_refl)) as [A2 B2].
      pose proof (LR1_f start eof). tauto. }
  split; auto. intros Hf Hc1. exact (renamed_parse k t1 t2 M1 M2 (or_introl Nk) (or_introl Nk) He Hf Hc1 (proj1 Hc Hc1)).
Qed.

(** *** C94 *)
Lemma renamed_lalr t1 t2 : makes LALR true g1 t1 -> makes LALR true g2 t2 -> term rules1 eof -> productive rules1 ->
  (SLR1 rules1 start eof -> conflicts (t_actions t1) = [] /\ conflicts (t_actions t2) = []) /\
  (start_fresh rules1 start -> conflicts (t_actions t1) = [] -> conflicts (t_actions t2) = [] -> carries t1 -> carries t2 ->
    (forall input, validates t1 input true <-> validates t2 (map (retok f) input) true) /\
    (forall M (maps1 : reductmap T1 M) (maps2 : reductmap T2 M) input v, same_reductors f m rules1 maps1 maps2 ->
       (parses t1 input maps1 (POk v) <-> parses t2 (map (retok f) input) maps2 (POk v)))).
Proof.
  intros M1 M2 He Hp. pose proof (proj1 (term_f eof) He) as He2. pose proof (productive_f Hp) as Hp2. split.
  - intros HS. split.
    + destruct (makes_tabler _ _ _ _ _ W1 G1 _ _ M1) as (t & Ht & _). destruct (with_table_total _ _ _ _ _ W1 G1 SLR _ Ht) as (_ & ts & _ & Ms).
      refine (slr_clean true _ _ _ _ W1 G1 LALR _ _ He Ms (or_introl eq_refl) _ M1). apply (slr_SLR1 _ _ _ _ _ W1 G1 _ Ms He (or_introl eq_refl)); auto.
    + destruct (makes_tabler _ _ _ _ _ W2 G2 _ _ M2) as (t & Ht & _). destruct (with_table_total _ _ _ _ _ W2 G2 SLR _ Ht) as (_ & ts & _ & Ms).
      refine (slr_clean true _ _ _ _ W2 G2 LALR _ _ He2 Ms (or_introl eq_refl) _ M2). apply (slr_SLR1 _ _ _ _ _ W2 G2 _ Ms He2 (or_introl eq_refl)); auto. now apply SLR1_f.
  - intros Hf Hc1 Hc2 K1 K2. exact (renamed_parse LALR t1 t2 M1 M2 (or_intror K1) (or_intror K2) He Hf Hc1 Hc2).
Qed.
End Rename.
