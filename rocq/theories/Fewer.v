(** Leaving alternatives out makes no conflicts (C135). *)
From Coq Require Import List Bool Arith Lia.
From Verif Require Import BTree Model Base Spec SpecP Interface FirstFollow ActTab LR Canon CanonLR LalrLR Agree Wrap Final StatesSpec StatesP Valid Dead Used FewerSpec.
Import ListNotations.

(** ** grammars *)
Section Mono.
Context {T : Type} {OT : Ord T}.
Variables (f : T -> nat -> nat) (r1 r2 : rulemap T) (start : T).
Hypothesis H : fewer_by f r1 r2 start.
Let good x := term r1 x <-> term r2 x.

Lemma good_rhs A i rhs : prod_at r1 A i rhs -> Forall good rhs.
Proof. intros P. apply Forall_forall. intros x Hx. eapply (fw_term _ _ _ _ H); eauto. Qed.

Lemma fewer_derives u w : derives r1 u w -> Forall good u -> derives r2 u w /\ Forall good w.
Proof.
  induction 1 as [u|u v w R D IH]; intros G; [split; [constructor|auto]|]. destruct R as [a A b i rhs P].
  apply Forall_app in G as [Ga G]. inversion G as [|? ? GA Gb]; subst.
  destruct IH as [D2 Gw]. { apply Forall_app. split; auto. apply Forall_app. split; auto. eapply good_rhs; eauto. }
  split; auto. econstructor; [|exact D2]. econstructor. eapply (fw_prod _ _ _ _ H); eauto.
Qed.

Lemma fewer_first X x : good X -> first_spec r1 X x -> first_spec r2 X x.
Proof.
  intros G [F (v & D)]. apply fewer_derives in D as [D Gw]; [|constructor; auto]. inversion Gw; subst. split; [now apply H2|eauto].
Qed.

Lemma good_nth A i rhs p X : prod_at r1 A i rhs -> nth_error rhs p = Some X -> good X.
Proof. intros P E. apply nth_error_In in E. eapply (fw_term _ _ _ _ H); eauto. Qed.

Lemma fewer_nonterm A i rhs X : wf_rules r2 -> prod_at r1 A i rhs -> In X rhs -> nonterm r1 X -> nonterm r2 X.
Proof.
  intros W P I N. pose proof (fw_term _ _ _ _ H _ _ _ _ P I) as G. destruct (bm_get X r2) as [r|] eqn:E; [now exists r|].
  exfalso. apply G; auto. intros (r & E'). congruence.
Qed.

Lemma fewer_follow eof A x : wf_rules r2 -> follow_rules r1 start eof A x -> follow_rules r2 start eof A x.
Proof.
  intros W. induction 1 as [|B i u A Y v x P N F|B i u A x P N F IH].
  - constructor.
  - eapply fr_first; [eapply (fw_prod _ _ _ _ H); eauto| |].
    + eapply fewer_nonterm; eauto. apply in_or_app. right. now left.
    + eapply fewer_first; eauto. eapply (fw_term _ _ _ _ H); eauto. apply in_or_app. right. right. now left.
  - eapply fr_last; [eapply (fw_prod _ _ _ _ H); eauto| |exact IH]. eapply fewer_nonterm; eauto. apply in_or_app. right. now left.
Qed.
End Mono.

(** ** automata *)
Section Sim.
Context {T : Type} {OT : Ord T}.
Variables (f : T -> nat -> nat) (start eof : T) (g1 g2 : grammar T).
Notation r1 := (g_rules g1).
Notation r2 := (g_rules g2).
Hypothesis H : fewer_by f r1 r2 start.
Hypothesis E1 : term r1 eof.
Hypothesis E2 : term r2 eof.
Variables (p1 p2 : production T).
Hypothesis P1 : prod_at r1 start 0 (fst p1) /\ snd p1 = 0.
Hypothesis P2 : prod_at r2 start 0 (fst p2) /\ snd p2 = 0.
Variables (sts1 sts2 : list (state T)) (sfk1 sfk2 : state T -> option nat) (lk1 lk2 : position T -> res (bset T)) (acts1 acts2 : acttable T).
Hypothesis L1 : lr0 g1 start eof p1 sts1 sfk1 lk1 acts1.
Hypothesis L2 : lr0 g2 start eof p2 sts2 sfk2 lk2 acts2.
Let img (A : T) (pr : production T) : production T := (fst pr, f A (snd pr)).

Lemma img_start : img start p1 = p2.
Proof.
  destruct P1 as [Q1 Z1], P2 as [Q2 Z2], p1 as [a n], p2 as [b m]. cbn in *. subst. unfold img. cbn. rewrite (fw_start _ _ _ _ H).
  f_equal. apply (fw_prod _ _ _ _ H) in Q1. rewrite (fw_start _ _ _ _ H) in Q1. eapply prod_at_fun'; eauto.
Qed.

Definition covered (q q2 : nat) : Prop := forall A pr p, has sts1 q A pr p -> has sts2 q2 A (img A pr) p.

Lemma covered_just q q2 : (q = 0 -> q2 = 0) -> (forall A pr p, has sts1 q A pr (S p) -> has sts2 q2 A (img A pr) (S p)) -> covered q q2.
Proof.
  intros Z K A pr p Hh. apply (l_just _ _ _ _ _ _ _ _ L1) in Hh. induction Hh as [|q A pr p Hh|q A pr p B i rhs Hj IH Hn Hp].
  - rewrite img_start, (Z eq_refl). apply (l_start _ _ _ _ _ _ _ _ L2).
  - auto.
  - specialize (IH Z K). change (img B (rhs, i)) with (rhs, f B i). eapply (l_clo _ _ _ _ _ _ _ _ L2); [exact IH|exact Hn|]. eapply (fw_prod _ _ _ _ H); eauto.
Qed.

Lemma tr_item q X n : tr sts1 sfk1 q X n -> exists A pr p, has sts1 q A pr p /\ nth_error (fst pr) p = Some X.
Proof.
  intros (row & [A pr p l] & Hr & Hi & Ht & _). exists A, pr, p. split; [now exists row, l|]. now rewrite ptop_nth in Ht.
Qed.

Lemma tr_zero q X n : tr sts1 sfk1 q X n -> n <> 0.
Proof.
  intros Ht ->. destruct (tr_item _ _ _ Ht) as (A & pr & p & Hh & Hn). pose proof (l_fwd _ _ _ _ _ _ _ _ L1 _ _ _ _ _ _ Ht Hh Hn) as Hz.
  now apply (l_zero _ _ _ _ _ _ _ _ L1) in Hz.
Qed.

Lemma covered_next q q2 X n : covered q q2 -> tr sts1 sfk1 q X n -> exists n2, tr sts2 sfk2 q2 X n2 /\ covered n n2.
Proof.
  intros C Ht. destruct (tr_item _ _ _ Ht) as (A & pr & p & Hh & Hn).
  destruct (l_tr _ _ _ _ _ _ _ _ L2 _ _ _ _ X (C _ _ _ Hh) Hn) as (n2 & Ht2). exists n2. split; auto. apply covered_just.
  - intros E. now apply tr_zero in Ht.
  - intros A' pr' p' Hh'. destruct (l_back _ _ _ _ _ _ _ _ L1 _ _ _ _ _ _ Ht Hh') as [Hb Hn'].
    eapply (l_fwd _ _ _ _ _ _ _ _ L2); eauto.
Qed.

Lemma covered_start : covered 0 0.
Proof. apply covered_just; auto. intros A pr p Hh. now apply (l_zero _ _ _ _ _ _ _ _ L1) in Hh. Qed.

(** with lookaheads *)
Section Look.
Hypothesis C2 : lr1c g2 start eof p2 sts2 sfk2 lk2.
Hypothesis S1 : lr1s g1 start eof p1 sts1 sfk1 lk1.
Definition coveredl (q q2 : nat) : Prop := forall A pr p x, term r1 x -> hasl sts1 lk1 q A pr p x -> term r2 x /\ hasl sts2 lk2 q2 A (img A pr) p x.

Lemma just_valid q A pr p : just g1 start p1 sts1 q A pr p -> prod_at r1 A (snd pr) (fst pr).
Proof. intros J. eapply just_has in J; eauto. now apply (l_valid _ _ _ _ _ _ _ _ L1) in J as [J _]. Qed.

Lemma coveredl_just q q2 : (q = 0 -> q2 = 0) -> covered q q2 ->
  (forall A pr p x, term r1 x -> hasl sts1 lk1 q A pr (S p) x -> term r2 x /\ hasl sts2 lk2 q2 A (img A pr) (S p) x) -> coveredl q q2.
Proof.
  intros Z C K A pr p x Tx Hh. apply (s_just _ _ _ _ _ _ _ S1) in Hh; auto. revert Tx.
  induction Hh as [|q A pr p x Hh|q A pr p B Y i rhs x Hj Hn Hn' Hp Hf|q A pr p B i rhs x Hj IH Hn Hn' Hp]; intros Tx.
  - rewrite img_start, (Z eq_refl). split; auto. apply (c_start _ _ _ _ _ _ _ C2).
  - auto.
  - assert (first_spec r2 Y x) as Hf2.
    { eapply fewer_first; eauto. eapply good_nth; [exact H|eapply just_valid; exact Hj|exact Hn']. }
    split; [apply Hf2|]. change (img B (rhs, i)) with (rhs, f B i). assert (has sts1 q A pr p) as Hh by (eapply just_has; eauto). apply C in Hh.
    eapply (c_first _ _ _ _ _ _ _ C2); [exact Hh|exact Hn|exact Hn'| |exact Hf2]. eapply (fw_prod _ _ _ _ H); eauto.
  - destruct (IH Z C K Tx) as [T2 IH']. split; auto. change (img B (rhs, i)) with (rhs, f B i).
    eapply (c_last _ _ _ _ _ _ _ C2); [exact T2|exact IH'|exact Hn|exact Hn'|]. eapply (fw_prod _ _ _ _ H); eauto.
Qed.

Lemma coveredl_next q q2 X n n2 : covered q q2 -> coveredl q q2 -> tr sts1 sfk1 q X n -> tr sts2 sfk2 q2 X n2 -> covered n n2 -> coveredl n n2.
Proof.
  intros C Cl Ht Ht2 Cn. apply coveredl_just; auto.
  - intros E. now apply tr_zero in Ht.
  - intros A pr p x Tx Hh. pose proof (hasl_has _ _ _ _ _ _ _ Hh) as Hh0.
    destruct (l_back _ _ _ _ _ _ _ _ L1 _ _ _ _ _ _ Ht Hh0) as [Hb Hn]. apply (s_back _ _ _ _ _ _ _ S1 _ _ _ _ _ _ _ Ht) in Hh.
    destruct (Cl _ _ _ _ Tx Hh) as [T2 Hh2]. split; auto. eapply (c_fwd _ _ _ _ _ _ _ C2); eauto.
Qed.

Lemma path_coveredl q qs Xs : path sts1 sfk1 (q :: qs) Xs -> exists q2 qs2, path sts2 sfk2 (q2 :: qs2) Xs /\ covered q q2 /\ coveredl q q2.
Proof.
  intros P. remember (q :: qs) as l eqn:El. revert q qs El. induction P as [|q0 qs0 X Xs n P IH Ht]; intros q qs El; injection El as <- <-.
  - exists 0, []. split; [constructor|]. split; [apply covered_start|]. apply coveredl_just; auto using covered_start.
    intros A pr p x _ Hh. apply hasl_has in Hh. now apply (l_zero _ _ _ _ _ _ _ _ L1) in Hh.
  - destruct (IH _ _ eq_refl) as (q2 & qs2 & P2' & C & Cl). destruct (covered_next _ _ _ _ C Ht) as (n2 & Ht2 & Cn).
    exists n2, (q2 :: qs2). split; [econstructor; eauto|]. split; auto. apply (coveredl_next q0 q2 X n n2); auto.
Qed.
End Look.

Lemma path_covered q qs Xs : path sts1 sfk1 (q :: qs) Xs -> exists q2 qs2, path sts2 sfk2 (q2 :: qs2) Xs /\ covered q q2.
Proof.
  intros P. remember (q :: qs) as l eqn:El. revert q qs El. induction P as [|q0 qs0 X Xs n P IH Ht]; intros q qs El; injection El as <- <-.
  - exists 0, []. split; [constructor|]. apply covered_start.
  - destruct (IH _ _ eq_refl) as (q2 & qs2 & P2' & C). destruct (covered_next _ _ _ _ C Ht) as (n2 & Ht2 & Cn).
    exists n2, (q2 :: qs2). split; [econstructor; eauto|auto].
Qed.

(** a conflict in a state is one in a state that covers it *)
Lemma covered_conflict q q2 x row m a b : covered q q2 ->
  (forall A pr x, hasl sts1 lk1 q A pr (length (fst pr)) x -> term r1 x /\ hasl sts2 lk2 q2 A (img A pr) (length (fst pr)) x) ->
  nth_error sts1 q = Some row -> nth_error acts1 q = Some m -> bm_get x m = Some (Conflict a b) ->
  exists m2 a2 b2, nth_error acts2 q2 = Some m2 /\ bm_get x m2 = Some (Conflict a2 b2).
Proof.
  intros C Cl Hr Hm Hc. destruct (row_spec _ _ _ _ _ _ _ _ L1 _ _ Hr) as (m' & Hm' & Ok1). rewrite Hm in Hm'. injection Hm' as <-.
  assert (exists a b, bm_get x m = Some (Conflict a b)) as Hc' by eauto.
  apply (row_ok_conflict _ _ _ _ _ _ _ Ok1) in Hc' as (pa & pb & da & db & Ia & Ib & Da & Db & N).
  assert (exists row2, nth_error sts2 q2 = Some row2) as (row2 & Hr2).
  { destruct pa as [A pr p l]. destruct (C A pr p) as (row2 & l2 & E & _); eauto. now exists row, l. }
  destruct (row_spec _ _ _ _ _ _ _ _ L2 _ _ Hr2) as (m2 & Hm2 & Ok2).
  set (to := fun d d2 : action T => match d with
    | Shift _ => exists n, d2 = Shift n | Reduce A pr => d2 = Reduce A (img A pr) /\ prod_at r1 A (snd pr) (fst pr) | Acc => d2 = Acc | _ => False end).
  assert (forall pos d, In pos row -> dec g1 lk1 sfk1 start row pos x d -> (exists n, d = Goto n) \/ exists pos2 d2, In pos2 row2 /\ dec g2 lk2 sfk2 start row2 pos2 x d2 /\ to d d2) as Hto.
  { intros [A pr p l] d Ii D. assert (has sts1 q A pr p) as Hh by (exists row, l; auto). inversion D as [t n Ht Tt Hs|t n Ht Tt Hs|t lk Ht Hl Hx Hs|t lk Ht Hl Hx Hs]; subst.
    - right. pose proof Ht as Hn. rewrite ptop_nth in Hn. pose proof (C _ _ _ Hh) as Hh2.
      destruct (l_tr _ _ _ _ _ _ _ _ L2 _ _ _ _ x Hh2 Hn) as (n2 & row' & pos2 & Hr' & Hi' & Ht' & Hs'). rewrite Hr2 in Hr'. injection Hr' as <-.
      exists pos2, (Shift n2). split; auto. split; [|cbn; eauto]. constructor; auto.
      apply (good_nth _ _ _ _ H A (snd pr) (fst pr) p x); auto. now apply (l_valid _ _ _ _ _ _ _ _ L1) in Hh as [Hh _].
    - left. eauto.
    - right. rewrite ptop_nth in Ht. pose proof (l_valid _ _ _ _ _ _ _ _ L1 _ _ _ _ Hh) as [V Hle]. apply nth_error_None in Ht.
      assert (p = length (fst pr)) as -> by lia. destruct (Cl A pr x) as [_ (row' & l2 & look & Hr' & Hi' & Hl' & Hx')]; [exists row, l, lk; auto|].
      rewrite Hr2 in Hr'. injection Hr' as <-. exists (mkPos A (img A pr) (length (fst pr)) l2), (Reduce A (img A pr)). split; auto. split; [|cbn; auto].
      apply (dec_reduce g2 lk2 sfk2 start row2 (mkPos A (img A pr) (length (fst pr)) l2) x look); auto.
      rewrite ptop_nth. now apply nth_error_None.
    - right. rewrite ptop_nth in Ht. pose proof (l_valid _ _ _ _ _ _ _ _ L1 _ _ _ _ Hh) as [V Hle]. apply nth_error_None in Ht.
      assert (p = length (fst pr)) as -> by lia. destruct (Cl A pr x) as [_ (row' & l2 & look & Hr' & Hi' & Hl' & Hx')]; [exists row, l, lk; auto|].
      rewrite Hr2 in Hr'. injection Hr' as <-. exists (mkPos A (img A pr) (length (fst pr)) l2), Acc. split; auto. split; [|cbn; auto].
      apply (dec_acc g2 lk2 sfk2 _ row2 (mkPos A (img A pr) (length (fst pr)) l2) x look); auto.
      rewrite ptop_nth. now apply nth_error_None. }
  assert (forall pos d n pos' , In pos row -> In pos' row -> dec g1 lk1 sfk1 start row pos x d -> dec g1 lk1 sfk1 start row pos' x (Goto n) -> d = Goto n) as Hgo.
  { intros [A pr p l] d n pos' Ii Ii' D D'. inversion D' as [|t n' Ht Tt Hs| |]; subst. assert (has sts1 q A pr p) as Hh by (exists row, l; auto).
    inversion D as [t n' Ht' Tt' Hs'|t n' Ht' Tt' Hs'|t lk Ht' Hl Hx Hs'|t lk Ht' Hl Hx Hs']; subst.
    - contradiction.
    - congruence.
    - rewrite ptop_nth in Ht'. pose proof (l_valid _ _ _ _ _ _ _ _ L1 _ _ _ _ Hh) as [V Hle]. apply nth_error_None in Ht'.
      assert (p = length (fst pr)) as -> by lia. destruct (Cl A pr x) as [Tx _]; [exists row, l, lk; auto|]. contradiction.
    - rewrite ptop_nth in Ht'. pose proof (l_valid _ _ _ _ _ _ _ _ L1 _ _ _ _ Hh) as [V Hle]. apply nth_error_None in Ht'.
      assert (p = length (fst pr)) as -> by lia. destruct (Cl A pr x) as [Tx _]; [exists row, l, lk; auto|]. contradiction. }
  destruct (Hto _ _ Ia Da) as [(n & ->)|(qa & d2a & Ia2 & Da2 & Ta)]. { exfalso. apply N. symmetry. apply (Hgo pb _ _ pa); auto. }
  destruct (Hto _ _ Ib Db) as [(n & ->)|(qb & d2b & Ib2 & Db2 & Tb)]. { exfalso. apply N. apply (Hgo pa _ _ pb); auto. }
  assert (d2a <> d2b) as N2.
  { intros <-. apply N. destruct da as [n|n|A pr| |]; cbn in Ta; try contradiction.
    - destruct Ta as (n2 & ->). destruct db as [n'|n'|A' pr'| |]; cbn in Tb; try contradiction; try discriminate Tb; [|now destruct Tb as [Tb _]].
      inversion Da; inversion Db; subst. congruence.
    - destruct Ta as [-> V]. destruct db as [n'|n'|A' pr'| |]; cbn in Tb; try contradiction; try discriminate Tb; [now destruct Tb|].
      destruct Tb as [E V']. unfold img in E. injection E as -> Ef En. f_equal. destruct pr as [s i], pr' as [s' i']. cbn in *. subst s'. f_equal. eapply (fw_inj _ _ _ _ H); eauto.
    - subst d2a. destruct db as [n'|n'|A' pr'| |]; cbn in Tb; try contradiction; try reflexivity; [now destruct Tb|now destruct Tb]. }
  exists m2. assert (exists a b, bm_get x m2 = Some (Conflict a b)) as (a2 & b2 & E).
  { apply (row_ok_conflict _ _ _ _ _ _ _ Ok2). exists qa, qb, d2a, d2b. auto. }
  eauto.
Qed.
End Sim.

(** ** tables *)
Section Tables.
Context {T : Type} {OT : Ord T}.

Lemma path_moves start eof g p0 sfk lookf t qs Xs :
  lr0 g start eof p0 (t_states t) sfk lookf (t_actions t) -> path (t_states t) sfk qs Xs -> stack_path t qs Xs.
Proof. intros L. induction 1; [constructor|]. econstructor; eauto. eapply tr_moves; eauto. Qed.

Lemma fewer_where (dbg1 dbg2 : bool) (start eof : T) (r1 r2 : rulemap T) g1 g2 : wf_rules r1 -> wf_rules r2 ->
  grammar_new dbg1 start r1 eof = Val g1 -> grammar_new dbg2 start r2 eof = Val g2 -> term r1 eof -> term r2 eof -> fewer r1 r2 start ->
  forall k t1 t2, k <> LALR -> makes k dbg1 g1 t1 -> makes k dbg2 g2 t2 -> dbg1 = true \/ only_terminals t1 ->
  forall q qs Xs row x a b, stack_path t1 (q :: qs) Xs -> nth_error (t_actions t1) q = Some row -> bm_get x row = Some (Conflict a b) ->
  exists q2 qs2 row2 a2 b2, stack_path t2 (q2 :: qs2) Xs /\ nth_error (t_actions t2) q2 = Some row2 /\ bm_get x row2 = Some (Conflict a2 b2).
Proof.
  intros W1 W2 G1 G2 E1 E2 (f & H) k t1 t2 Hk M1 M2 O q qs Xs row x a b P Hr Hx.
  destruct (Wp0 _ _ _ _ _ W1 G1) as (p1 & Hp1 & Pa1 & Pb1). destruct (Wp0 _ _ _ _ _ W2 G2) as (p2 & Hp2 & Pa2 & Pb2).
  pose proof (Wr _ _ _ _ _ G1) as R1. pose proof (Wr _ _ _ _ _ G2) as R2.
  destruct (makes_terminals _ _ _ _ _ W1 G1 _ _ M1 O) as (s1 & Hs1 & _ & _ & Hf1 & Hw1). pose proof (tmakes_facts _ _ _ _ _ W1 G1 _ Hs1) as F1.
  destruct (makes_with _ _ _ _ _ W1 G1 _ _ _ Hs1 M1) as (fm1 & Em1).
  destruct (makes_tabler _ _ _ _ _ W2 G2 _ _ M2) as (s2 & Hs2 & F2 & fm2 & Em2).
  assert (forall p0 sfk lookf, lr0 g1 start eof p0 (t_states t1) sfk lookf (t_actions t1) -> exists row0, nth_error (t_states t1) q = Some row0) as Hrow.
  { intros p0 sfk lookf L. destruct (row_spec' _ _ _ _ _ _ _ _ L _ _ Hr) as (row0 & E & _). eauto. }
  rewrite <- R1, <- R2 in H. rewrite <- R1 in Pa1. rewrite <- R2 in Pa2.
  assert (term (g_rules g2) eof) as E2' by now rewrite R2.
  destruct k; [| |now contradiction Hk].
  - pose proof (slr_lr0 _ _ _ _ _ W1 G1 _ F1 _ _ Em1 _ Hp1) as L1. pose proof (slr_lr0 _ _ _ _ _ W2 G2 _ F2 _ _ Em2 _ Hp2) as L2.
    eapply moves_path in P; [|exact L1].
    destruct (path_covered f start eof g1 g2 H p1 p2 (conj Pa1 Pb1) (conj Pa2 Pb2) _ _ _ _ _ _ _ _ L1 L2 _ _ _ P) as (q2 & qs2 & P2 & C).
    destruct (Hrow _ _ _ L1) as (row0 & Hr0).
    destruct (covered_conflict f start eof g1 g2 H p1 p2 (conj Pa1 Pb1) (conj Pa2 Pb2) _ _ _ _ _ _ _ _ L1 L2 q q2 x row0 row a b C) as (m2 & a2 & b2 & Hm2 & Hc2); auto.
    { intros A pr y Hh. apply slr_hasl in Hh as [Hh Hy]. rewrite R1. pose proof (Hw1 _ _ Hy) as Ty. split; auto. apply slr_hasl. split; [now apply C|].
      apply (tf_follow_complete _ _ _ _ _ _ F2 E2). rewrite R1, R2 in H. eapply fewer_follow; eauto. apply (tf_follow_sound _ _ _ _ _ _ F1 E1 Hf1); auto. }
    exists q2, qs2, m2, a2, b2. split; auto. eapply path_moves; eauto.
  - pose proof (clr_lr0 _ _ _ _ _ W1 G1 _ F1 _ _ Em1 _ Hp1) as L1. pose proof (clr_lr0 _ _ _ _ _ W2 G2 _ F2 _ _ Em2 _ Hp2) as L2.
    pose proof (clr_lr1s _ _ _ _ _ W1 G1 _ F1 _ _ Em1 _ Hp1) as S1. pose proof (clr_lr1c _ _ _ _ _ W2 G2 _ F2 _ _ Em2 _ Hp2) as C2.
    eapply moves_path in P; [|exact L1].
    destruct (path_coveredl f start eof g1 g2 H E2' p1 p2 (conj Pa1 Pb1) (conj Pa2 Pb2) _ _ _ _ _ _ _ _ L1 L2 C2 S1 _ _ _ P) as (q2 & qs2 & P2 & C & Cl).
    destruct (Hrow _ _ _ L1) as (row0 & Hr0).
    destruct (covered_conflict f start eof g1 g2 H p1 p2 (conj Pa1 Pb1) (conj Pa2 Pb2) _ _ _ _ _ _ _ _ L1 L2 q q2 x row0 row a b C) as (m2 & a2 & b2 & Hm2 & Hc2); auto.
    { intros A pr y Hh. assert (term (g_rules g1) y) as Ty.
      { rewrite R1. eapply (clr_look_Q _ _ _ _ _ W1 G1 _ F1) with (Q := fun _ x => term r1 x); eauto. eapply Qterm; eauto. }
      split; auto. now apply Cl. }
    exists q2, qs2, m2, a2, b2. split; auto. eapply path_moves; eauto.
Qed.

Lemma fewer_clean (dbg1 dbg2 : bool) (start eof : T) (r1 r2 : rulemap T) g1 g2 : wf_rules r1 -> wf_rules r2 ->
  grammar_new dbg1 start r1 eof = Val g1 -> grammar_new dbg2 start r2 eof = Val g2 -> term r1 eof -> term r2 eof -> fewer r1 r2 start ->
  forall k t1 t2, k <> LALR -> makes k dbg1 g1 t1 -> makes k dbg2 g2 t2 -> dbg1 = true \/ only_terminals t1 ->
  conflicts (t_actions t2) = [] -> conflicts (t_actions t1) = [].
Proof.
  intros W1 W2 G1 G2 E1 E2 H k t1 t2 Hk M1 M2 O Hc. destruct (conflicts (t_actions t1)) as [|c cs] eqn:Ec; auto. exfalso.
  assert (In c (conflicts (t_actions t1))) as Hin by (rewrite Ec; now left).
  apply in_conflicts in Hin as (Hcc & q & row & x & Hq & Hx). destruct c as [| | | |a b]; try discriminate Hcc.
  destruct (Wp0 _ _ _ _ _ W1 G1) as (p1 & Hp1 & _). destruct (makes_made _ _ _ _ _ W1 G1 _ _ _ M1 Hp1) as (sfk & lookf & X).
  pose proof (m_lr0 _ _ _ _ _ _ _ _ _ _ X) as L. destruct (row_spec' _ _ _ _ _ _ _ _ L _ _ Hq) as (row0 & E0 & (Hs & _)).
  destruct (makes_states _ _ _ _ _ W1 G1 _ _ M1) as (_ & HR & _). destruct (HR q) as (qs & xs & P). { apply nth_error_Some. congruence. }
  assert (bm_get x row = Some (Conflict a b)) as Hg by now apply bm_in_get.
  destruct (fewer_where _ _ _ _ _ _ _ _ W1 W2 G1 G2 E1 E2 H _ _ _ Hk M1 M2 O _ _ _ _ _ _ _ P Hq Hg) as (q2 & qs2 & row2 & a2 & b2 & _ & Hq2 & Hg2).
  assert (In (Conflict a2 b2) (conflicts (t_actions t2))) as Hin.
  { apply in_conflicts. split; auto. exists q2, row2, x. split; auto. now apply bm_get_in. }
  rewrite Hc in Hin. contradiction.
Qed.
End Tables.

(** ** values *)
Section Values.
Context {T : Type} {OT : Ord T} {M : Type}.
Variables (f : T -> nat -> nat) (start : T) (r1 r2 : rulemap T) (maps1 maps2 : reductmap T M).
Hypothesis H : fewer_by f r1 r2 start.
Hypothesis F : same_functions f r1 maps1 maps2.
Let good x := term r1 x <-> term r2 x.

Lemma fewer_evals : (forall X w it, evals r1 maps1 X w it -> good X -> evals r2 maps2 X w it) /\
  (forall Xs w its, evals_seq r1 maps1 Xs w its -> Forall good Xs -> evals_seq r2 maps2 Xs w its).
Proof.
  apply evals_mut.
  - intros tok Ht G. constructor. now apply G.
  - intros A i rhs w its fs h P E IH Hf Hh G. destruct (F _ _ _ _ _ P Hf Hh) as (fs2 & H1 & H2).
    eapply evals_rule; eauto. { eapply (fw_prod _ _ _ _ H); eauto. } apply IH. eapply good_rhs; eauto.
  - constructor.
  - intros X Xs w1 w2 it its E IH Es IHs G. inversion G; subst. constructor; auto.
Qed.

Lemma fewer_values dbg1 dbg2 eof g1 g2 k1 k2 t1 t2 input m : wf_rules r1 -> wf_rules r2 ->
  grammar_new dbg1 start r1 eof = Val g1 -> grammar_new dbg2 start r2 eof = Val g2 -> term r1 eof -> term r2 eof -> start_fresh r2 start ->
  makes k1 dbg1 g1 t1 -> makes k2 dbg2 g2 t2 -> k2 <> LALR \/ carries t2 -> conflicts (t_actions t2) = [] ->
  parses t1 input maps1 (POk m) -> parses t2 input maps2 (POk m).
Proof.
  intros W1 W2 G1 G2 E1 E2 Hf M1 M2 Hk Hc Hp.
  assert (start_fresh r1 start) as Hf1. { intros A i rhs P. apply (fw_prod _ _ _ _ H) in P. eauto. }
  destruct (parses_evals _ _ _ _ _ W1 G1 maps1 _ _ M1 E1 _ _ Hf1 Hp) as (rhs & its & it & Hrhs & Hev & ->).
  apply (evals_parses _ _ _ _ _ W2 G2 maps2 k2 t2 input rhs its it); auto.
  - pose proof (fw_prod _ _ _ _ H _ _ _ Hrhs) as P. rewrite (fw_start _ _ _ _ H) in P. exact P.
  - apply (proj2 fewer_evals); auto. eapply good_rhs; eauto.
Qed.
End Values.
