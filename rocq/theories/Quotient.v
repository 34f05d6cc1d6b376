(** Lalr's automaton is the quotient of Slr's and of Clr's by equality of items (C117). *)
From Coq Require Import List Bool Arith Lia.
From Verif Require Import BTree Model Base Spec SpecP GrammarP FirstFollow Closure Canon ActTab LR CanonLR Merged Lalr LalrLR Agree Interface Wrap Final LR1Spec Handle HandleF LalrClr Cores StatesSpec.
Import ListNotations.

Section Quotient.
Context {T : Type} {OT : Ord T}.
Variables (dbg : bool) (start eof : T) (rules : rulemap T) (g : grammar T).
Hypothesis W : wf_rules rules.
Hypothesis Hg : grammar_new dbg start rules eof = Val g.

Lemma makes_lr0 k t tk p0 : g_basis g = mkPos start p0 0 [eof] -> tabler_makes dbg g t -> tabler_facts dbg start eof rules g t -> makes k dbg g tk ->
  exists sfk lookf, lr0 g start eof p0 (t_states tk) sfk lookf (t_actions tk) /\
    forall q, q < length (t_states tk) -> exists qs Xs, path (t_states tk) sfk (q :: qs) Xs.
Proof.
  intros Hp0 Ht F Hk. destruct (makes_with _ _ _ _ _ W Hg _ _ _ Ht Hk) as (fuel & E). destruct k.
  - exists (sfk_plain (t_kernels tk)), (slr_look (t_follow t)). split; [exact (slr_lr0 _ _ _ _ _ W Hg _ F _ _ E _ Hp0)|exact (slr_reach _ _ _ _ _ W Hg _ _ _ F E)].
  - exists (sfk_plain (t_kernels tk)), clr_look. split; [exact (clr_lr0 _ _ _ _ _ W Hg _ F _ _ E _ Hp0)|exact (clr_reach _ _ _ _ _ W Hg _ _ _ F E)].
  - destruct E as (p & E). destruct (lalr_inv _ _ _ _ _ W Hg _ F _ _ _ E) as (_ & _ & _ & El & _). rewrite El.
    exists (sfk_lalr p), clr_look. split; [exact (lalr_lr0 _ _ _ _ _ W Hg _ F _ _ _ E _ Hp0)|exact (lalr_reach _ _ _ _ _ W Hg _ F _ _ _ E)].
Qed.

Lemma lalr_quotient k tk tl : makes k dbg g tk -> makes LALR dbg g tl -> exists h,
  h 0 = 0 /\
  (forall q row, nth_error (t_states tk) q = Some row -> exists row', nth_error (t_states tl) (h q) = Some row' /\ same_core row row') /\
  (forall m, m < length (t_states tl) -> exists q, q < length (t_states tk) /\ h q = m) /\
  (forall q X n, moves tk q X n -> moves tl (h q) X (h n)) /\
  (forall q X m, q < length (t_states tk) -> moves tl (h q) X m -> exists n, moves tk q X n /\ h n = m) /\
  length (t_states tl) <= length (t_states tk) /\
  (length (t_states tl) = length (t_states tk) <->
     forall q q' row row', nth_error (t_states tk) q = Some row -> nth_error (t_states tk) q' = Some row' -> same_core row row' -> q = q').
Proof.
  intros Hk Hl. pose proof Hl as (t & Ht & F & fuel & p & E)%(makes_tabler _ _ _ _ _ W Hg).
  destruct (Wp0 _ _ _ _ _ W Hg) as (p0 & Hp0 & _).
  destruct (makes_lr0 k t tk p0 Hp0 Ht F Hk) as (sfk1 & lookf1 & L1 & R1).
  destruct (makes_lr0 LALR t tl p0 Hp0 Ht F Hl) as (sfk2 & lookf2 & L2 & R2).
  pose proof (lalr_inj _ _ _ _ _ W Hg _ _ _ _ F E) as I2.
  destruct (lalr_inv _ _ _ _ _ W Hg _ F _ _ _ E) as (_ & _ & _ & El & _). rewrite <- El in I2. clear El.
  set (N := length (t_states tk)) in *. set (M := length (t_states tl)) in *.
  destruct (bounded_choice (match_at (t_states tk) (t_states tl)) N) as (h & Hh).
  { intros q Hq. exact (match_total _ _ _ _ _ _ _ _ _ _ _ _ L1 L2 R1 q Hq). }
  assert (MF : forall q q1 q2, match_at (t_states tk) (t_states tl) q q1 -> match_at (t_states tk) (t_states tl) q q2 -> q1 = q2).
  { intros q q1 q2. apply (match_fun (t_states tk) (t_states tl) I2). }
  assert (HB : forall q row, nth_error (t_states tk) q = Some row -> q < N) by (intros q row H; apply nth_error_Some; congruence).
  assert (HC : forall q row, nth_error (t_states tk) q = Some row -> exists row', nth_error (t_states tl) (h q) = Some row' /\ same_core row row').
  { intros q row Hr. destruct (Hh q (HB _ _ Hr)) as (_ & H2 & H3).
    destruct (nth_error (t_states tl) (h q)) as [row'|] eqn:Er'; [|apply nth_error_None in Er'; unfold M in *; lia]. exists row'. split; auto.
    intros A pr i. split; intros (l & Hi).
    - destruct (proj1 (H3 A pr i)) as (r & l' & E1 & H1); [exists row, l; auto|]. assert (r = row') as -> by congruence. eauto.
    - destruct (proj2 (H3 A pr i)) as (r & l' & E1 & H1); [exists row', l; auto|]. assert (r = row) as -> by congruence. eauto. }
  assert (HS : forall m, m < M -> exists q, q < N /\ h q = m).
  { intros m Hm. destruct (match_total _ _ _ _ _ _ _ _ _ _ _ _ L2 L1 R2 m Hm) as (q & H1 & H2 & H3). exists q. split; auto.
    apply (MF q); auto. split; auto. split; auto. intros A pr i. symmetry. apply H3. }
  assert (HT : forall q X n, tr (t_states tk) sfk1 q X n -> q < N /\ n < N).
  { intros q X n Ht'. split; [destruct Ht' as (row & pos & Hr & _); eapply HB; eauto|exact (l_len _ _ _ _ _ _ _ _ L1 _ _ _ Ht')]. }
  assert (HM : forall q X n, moves tk q X n -> moves tl (h q) X (h n)).
  { intros q X n H. apply (moves_tr _ _ _ _ _ _ _ _ _ _ L1) in H. destruct (HT _ _ _ H) as [Hq Hn]. apply (tr_moves _ _ _ _ _ _ _ _ _ _ L2).
    exact (match_tr _ _ _ _ _ _ _ _ _ _ _ _ L1 L2 R1 I2 _ _ _ _ _ (Hh q Hq) (Hh n Hn) H). }
  assert (Heq : forall q q' row row', nth_error (t_states tk) q = Some row -> nth_error (t_states tk) q' = Some row' -> same_core row row' -> h q = h q').
  { intros q q' row row' E1 E2 Hs. apply (MF q); [apply Hh; eauto|]. destruct (Hh q' (HB _ _ E2)) as (_ & H2 & H3). split; [eauto|]. split; auto.
    intros A pr i. rewrite <- H3. split; intros (r & l & E' & Hi).
    - assert (r = row) as -> by congruence. destruct (proj1 (Hs A pr i)) as (l' & Hi'); eauto. exists row', l'. auto.
    - assert (r = row') as -> by congruence. destruct (proj2 (Hs A pr i)) as (l' & Hi'); eauto. exists row, l'. auto. }
  assert (HL : M <= N).
  { assert (NI := @NoDup_incl_length _ (seq 0 M) (map h (seq 0 N)) (seq_NoDup M 0)). rewrite map_length, !seq_length in NI. apply NI.
    intros m Hm. apply in_seq in Hm. destruct (HS m) as (q & Hq & <-); [lia|]. apply in_map. apply in_seq. lia. }
  exists h. split; [|split; [exact HC|split; [exact HS|split; [exact HM|split; [|split; [exact HL|split]]]]]].
  - destruct (l_start _ _ _ _ _ _ _ _ L1) as (row & l & E1 & _). assert (0 < N) as H0 by eauto.
    destruct (match_path _ _ _ _ _ _ _ _ _ _ _ _ L1 L2 R1 I2 0 (h 0) (Hh 0 H0)) as (qs & qs' & Xs & P1 & P2).
    apply (MF 0); [apply Hh; auto|]. split; auto. split.
    + destruct (l_start _ _ _ _ _ _ _ _ L2) as (row2 & l2 & E2 & _). apply nth_error_Some. congruence.
    + intros A pr i. assert (Q1 : path (t_states tk) sfk1 [0] []) by constructor. assert (Q2 : path (t_states tl) sfk2 [0] []) by constructor. split; intros H.
      * eapply (Agree.same_items _ _ _ _ _ _ _ _ _ _ _ _ L1 L2); eauto.
      * eapply (Agree.same_items _ _ _ _ _ _ _ _ _ _ _ _ L2 L1); eauto.
  - intros q X m Hq H. apply (moves_tr _ _ _ _ _ _ _ _ _ _ L2) in H. pose proof H as (row & [A pr i l] & H1 & H2 & H3 & _). rewrite ptop_nth in H3.
    destruct (Hh q Hq) as (_ & _ & Hi). assert (has (t_states tk) q A pr i) as Hh1 by (apply Hi; exists row, l; auto).
    destruct (l_tr _ _ _ _ _ _ _ _ L1 _ _ _ _ _ Hh1 H3) as (n & Hn). exists n.
    pose proof (tr_moves _ _ _ _ _ _ _ _ _ _ L1 Hn) as Mn. split; auto.
    apply HM, (moves_tr _ _ _ _ _ _ _ _ _ _ L2) in Mn. exact (tr_fun _ _ _ _ _ _ Mn H).
  - intros EL q q' row row' E1 E2 Hs. destruct (Nat.eq_dec q q') as [|NQ]; auto. exfalso. pose proof (Heq _ _ _ _ E1 E2 Hs) as Eh.
    assert (M <= length (remove Nat.eq_dec q' (seq 0 N))) as LL.
    { assert (NI := @NoDup_incl_length _ (seq 0 M) (map h (remove Nat.eq_dec q' (seq 0 N))) (seq_NoDup M 0)). rewrite map_length, seq_length in NI. apply NI.
      intros m Hm. apply in_seq in Hm. destruct (HS m) as (r & Hr & <-); [lia|]. destruct (Nat.eq_dec r q') as [->|NR].
      - rewrite <- Eh. apply in_map. apply in_in_remove; auto. apply in_seq. pose proof (HB _ _ E1). lia.
      - apply in_map. apply in_in_remove; auto. apply in_seq. lia. }
    pose proof (remove_length_lt Nat.eq_dec (seq 0 N) q') as RL. rewrite seq_length in RL. pose proof (HB _ _ E2).
    assert (In q' (seq 0 N)) as Hin by (apply in_seq; lia). specialize (RL Hin). lia.
  - intros Hc. apply Nat.le_antisymm; auto. apply (match_count _ _ _ _ _ _ _ _ _ _ _ _ L1 L2 R1).
    intros q q' Hq Hq' Ha. destruct (nth_error (t_states tk) q) as [row|] eqn:E1; [|apply nth_error_None in E1; unfold N in *; lia].
    destruct (nth_error (t_states tk) q') as [row'|] eqn:E2; [|apply nth_error_None in E2; unfold N in *; lia].
    apply (Hc q q' row row'); auto. exact (proj1 (like_alike _ _ _ _ _ E1 E2) Ha).
Qed.
End Quotient.
