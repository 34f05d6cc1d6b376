(** Rules whose automaton has exponentially many states (C128) *)
From Coq Require Import List Bool Arith Lia Relations.
From Verif Require Import BTree Model Base Spec SpecP GrammarP Interface StatesSpec StatesP LR Wrap Final Export Valid Dead Cores WopDump WorkStates.
Import ListNotations.

(** the symbols; Z is 0, S is 1 and the end of the input 2 *)
Definition eA (i : nat) : nat := 3 + 3 * i.
Definition ea (i : nat) : nat := 4 + 3 * i.
Definition ec (i : nat) : nat := 5 + 3 * i.

(** Z -> S; S -> A0 | ... | Am; Ai -> aj Ai (for each j but i) | ci *)
Definition expo_list (m : nat) : list (nat * list (list nat)) :=
  (0, [[1]]) :: (1, map (fun i => [eA i]) (seq 0 m)) ::
  map (fun i => (eA i, map (fun j => [ea j; eA i]) (filter (fun j => negb (Nat.eqb j i)) (seq 0 m)) ++ [[ec i]])) (seq 0 m).
Definition expo (m : nat) : rulemap nat := grammar_map (expo_list m).

Inductive eprod (m : nat) : nat -> list nat -> Prop :=
| ep_z : eprod m 0 [1]
| ep_s i : i < m -> eprod m 1 [eA i]
| ep_a i j : i < m -> j < m -> j <> i -> eprod m (eA i) [ea j; eA i]
| ep_c i : i < m -> eprod m (eA i) [ec i].

Lemma expo_nodup m : NoDup (map fst (expo_list m)).
Proof.
  unfold expo_list. cbn [map fst]. rewrite map_map. cbn [fst].
  assert (forall x, In x (map eA (seq 0 m)) -> 3 <= x) as H by (intros x Hx; apply in_map_iff in Hx as (i & <- & _); unfold eA; lia).
  constructor; [intros [E|Hx]; [discriminate|apply H in Hx; lia]|]. constructor; [intros Hx; apply H in Hx; lia|].
  apply FinFun.Injective_map_NoDup; [|apply seq_NoDup]. intros i j E. unfold eA in E. lia.
Qed.

Lemma expo_prod m X i rhs : prod_at (expo m) X i rhs -> eprod m X rhs.
Proof.
  unfold expo. rewrite grammar_map_get by apply expo_nodup. intros (ps & [E|[E|Hin]] & Hn).
  - injection E as <- <-. destruct i as [|[|i]]; cbn in Hn; try discriminate. injection Hn as <-. constructor.
  - injection E as <- <-. apply nth_error_In in Hn. apply in_map_iff in Hn as (k & <- & Hk). apply in_seq in Hk. constructor. lia.
  - apply in_map_iff in Hin as (k & E & Hk). apply in_seq in Hk. injection E as <- <-. apply nth_error_In in Hn. apply in_app_or in Hn as [Hn|[<-|[]]].
    + apply in_map_iff in Hn as (j & <- & Hj). apply filter_In in Hj as (Hj & Nj). apply in_seq in Hj. apply negb_true_iff, Nat.eqb_neq in Nj. constructor; lia.
    + constructor. lia.
Qed.
Lemma prod_expo m X rhs : eprod m X rhs -> exists i, prod_at (expo m) X i rhs.
Proof.
  intros H. assert (exists ps, In (X, ps) (expo_list m) /\ In rhs ps) as (ps & H1 & H2).
  { unfold expo_list. destruct H as [|i Hi|i j Hi Hj N|i Hi].
    - exists [[1]]. split; [now left|now left].
    - eexists. split; [right; left; reflexivity|]. apply in_map_iff. exists i. split; auto. apply in_seq. lia.
    - eexists. split; [right; right; apply in_map_iff; exists i; split; [reflexivity|apply in_seq; lia]|]. apply in_or_app. left. apply in_map_iff. exists j. split; auto.
      apply filter_In. split; [apply in_seq; lia|]. now apply negb_true_iff, Nat.eqb_neq.
    - eexists. split; [right; right; apply in_map_iff; exists i; split; [reflexivity|apply in_seq; lia]|]. apply in_or_app. right. now left. }
  apply In_nth_error in H2 as (i & Hi). exists i. unfold expo. rewrite grammar_map_get by apply expo_nodup. eauto.
Qed.
Lemma nonterm_expo m X : nonterm (expo m) X <-> X = 0 \/ X = 1 \/ exists i, i < m /\ X = eA i.
Proof.
  unfold nonterm, expo. rewrite grammar_map_of_list. split.
  - intros (r & Hr). rewrite of_list_get in Hr by (rewrite map_map; apply expo_nodup). apply in_map_iff in Hr as ([Y ps] & E & H). injection E as -> _.
    destruct H as [E|[E|H]]; [injection E; auto..|]. apply in_map_iff in H as (i & E & Hi). injection E as <- _. apply in_seq in Hi. right. right. exists i. split; auto; lia.
  - intros H. assert (exists ps, In (X, ps) (expo_list m)) as (ps & Hp).
    { unfold expo_list. destruct H as [->|[->|(i & Hi & ->)]]; [eexists; left; reflexivity|eexists; right; left; reflexivity|].
      eexists. right. right. apply in_map_iff. exists i. split; [reflexivity|]. apply in_seq. lia. }
    exists (rule_new X ps). rewrite of_list_get by (rewrite map_map; apply expo_nodup). apply in_map_iff. exists (X, ps). auto.
Qed.

Lemma expo_index m X i j rhs : prod_at (expo m) X i rhs -> prod_at (expo m) X j rhs -> i = j.
Proof.
  unfold expo. rewrite !grammar_map_get by apply expo_nodup. intros (ps & H1 & E1) (ps' & H2 & E2).
  assert (ps' = ps) as ->.
  { pose proof (expo_nodup m) as N. clear E1 E2. revert H1 H2 N. generalize (expo_list m). induction l as [|[Y qs] l IH]; intros H1 H2 N; [destruct H1|]. cbn [map fst] in N. inversion N; subst. destruct H1 as [E|H1], H2 as [E'|H2]; try congruence; auto.
    - injection E as -> ->. exfalso. apply (in_map fst) in H2. auto.
    - injection E' as -> ->. exfalso. apply (in_map fst) in H1. auto. }
  assert (NoDup ps) as N; [|eapply NoDup_nth_error; eauto; [apply nth_error_Some|]; congruence].
  destruct H1 as [E|[E|H]].
  - injection E as _ <-. repeat constructor. intros [].
  - injection E as _ <-. apply FinFun.Injective_map_NoDup; [|apply seq_NoDup]. intros a b Eab. injection Eab as Eab. unfold eA in Eab. lia.
  - apply in_map_iff in H as (k & E & _). injection E as _ <-.
    apply WopP.NoDup_app_intro.
    + apply FinFun.Injective_map_NoDup; [|apply NoDup_filter, seq_NoDup]. intros a b Eab. injection Eab as Eab. unfold ea in Eab. lia.
    + repeat constructor. intros [].
    + intros x Hx [<-|[]]. apply in_map_iff in Hx as (a & Ea & _). discriminate.
Qed.

Section Expo.
Variables (n : nat) (dbg : bool) (g : grammar nat).
Let m := S n.
Let rules := expo m.
Hypothesis Hg : grammar_new dbg 0 rules 2 = Val g.
Let W : wf_rules rules := grammar_map_wf (expo_list m).
Variables (k : method) (t : tabler nat).
Hypothesis Hm : makes k dbg g t.
Variables (p0 : production nat) (sfk : list (position nat) -> option nat) (lookf : position nat -> res (list nat)).
Hypothesis L : lr0 g 0 2 p0 (t_states t) sfk lookf (t_actions t).
Hypothesis R : forall q, q <> 0 -> q < length (t_states t) -> exists q' X, tr (t_states t) sfk q' X q.

Local Notation has := (has (t_states t)).
Local Notation tr := (tr (t_states t) sfk).

Lemma expo_valid q A pr p : has q A pr p -> eprod m A (fst pr) /\ p <= length (fst pr) /\ prod_at rules A (snd pr) (fst pr).
Proof. intros H. destruct (l_valid _ _ _ _ _ _ _ _ L _ _ _ _ H) as [H1 H2]. rewrite (Wr _ _ _ _ _ Hg) in H1. split; [eapply expo_prod; eauto|auto]. Qed.
Lemma expo_clo q A pr p B rhs : has q A pr p -> nth_error (fst pr) p = Some B -> eprod m B rhs -> exists i, has q B (rhs, i) 0.
Proof.
  intros H Hn E. destruct (prod_expo _ _ _ E) as (i & Hi). exists i. eapply (l_clo _ _ _ _ _ _ _ _ L); eauto. now rewrite (Wr _ _ _ _ _ Hg).
Qed.
Lemma expo_just q A pr : has q A pr 0 -> (q = 0 /\ A = 0) \/ exists B pr' p, has q B pr' p /\ nth_error (fst pr') p = Some A.
Proof.
  intros H. apply (l_just _ _ _ _ _ _ _ _ L) in H. apply just_inv0 in H as [(-> & -> & _)|(B & pr' & p & J & Hn & _)]; auto.
  right. exists B, pr', p. split; auto. eapply just_has; eauto.
Qed.
Lemma expo_Z q pr : has q 0 pr 0 -> q = 0.
Proof.
  intros [[-> _]|(B & pr' & p & H & Hn)]%expo_just; auto. apply expo_valid in H as (E & _). exfalso. remember (fst pr') as rhs. clear - E Hn.
  destruct E; destruct p as [|[|[|p]]]; cbn in Hn; discriminate.
Qed.
Lemma expo_S q pr : has q 1 pr 0 -> q = 0.
Proof.
  intros [[-> _]|(B & pr' & p & H & Hn)]%expo_just; auto. pose proof H as (E & _)%expo_valid. remember (fst pr') as rhs.
  destruct E; destruct p as [|[|[|p]]]; cbn in Hn; try discriminate. now apply expo_Z in H.
Qed.

(** [i] is still possible in state [q] *)
Definition alive (q i : nat) : Prop := exists pr, has q (eA i) pr 0.
Lemma alive_top q i pr : i < m -> has q (eA i) pr 0 -> exists B pr' p, has q B pr' p /\ nth_error (fst pr') p = Some (eA i).
Proof. intros Hi [[_ E]|H]%expo_just; auto. discriminate. Qed.

Lemma alive_zero i : i < m -> alive 0 i.
Proof.
  intros Hi. pose proof (l_start _ _ _ _ _ _ _ _ L) as H0. pose proof H0 as (E & _)%expo_valid.
  assert (fst p0 = [1]) as E1 by (inversion E; auto; discriminate).
  destruct (expo_clo _ _ _ _ 1 [eA i] H0) as (x & H1); [now rewrite E1|now constructor|].
  destruct (expo_clo _ _ _ _ (eA i) [ec i] H1) as (y & H2); [reflexivity|now constructor|]. eexists. exact H2.
Qed.

Lemma alive_step q j : j < m -> (exists i, i < m /\ i <> j /\ alive q i) ->
  exists q', q' < length (t_states t) /\ forall i, i < m -> (alive q' i <-> alive q i /\ i <> j).
Proof.
  intros Hj (i0 & Hi0 & N0 & A0).
  assert (St : forall i, i < m -> i <> j -> alive q i -> exists x, has q (eA i) ([ea j; eA i], x) 0).
  { intros i Hi N (pr & Ha). destruct (alive_top _ _ _ Hi Ha) as (B & pr' & p & H1 & H2). eapply expo_clo; eauto. constructor; auto. }
  destruct (St i0 Hi0 N0 A0) as (x0 & H0). destruct (l_tr _ _ _ _ _ _ _ _ L _ _ _ _ (ea j) H0 eq_refl) as (q' & Hq').
  exists q'. split; [exact (l_len _ _ _ _ _ _ _ _ L _ _ _ Hq')|]. intros i Hi. split.
  - intros (pr & Ha). destruct (alive_top _ _ _ Hi Ha) as (B & pr' & p & H1 & H2). pose proof H1 as (E & _)%expo_valid. destruct pr' as [rhs x]. cbn [fst] in *.
    assert (NZ : q' <> 0). { intros ->. pose proof (l_fwd _ _ _ _ _ _ _ _ L _ _ _ _ _ _ Hq' H0 eq_refl) as H3. apply (l_zero _ _ _ _ _ _ _ _ L) in H3. discriminate. }
    destruct E as [|i1 Hi1|i1 j1 Hi1 Hj1 N1|i1 Hi1].
    + destruct p as [|[|p]]; cbn in H2; discriminate.
    + destruct p as [|[|p]]; cbn in H2; try discriminate. apply expo_S in H1. contradiction.
    + destruct p as [|[|[|p]]]; cbn in H2; try discriminate; injection H2 as H2; unfold ea, eA in H2; try lia. assert (i1 = i) as -> by lia.
      apply (l_back _ _ _ _ _ _ _ _ L _ _ _ _ _ _ Hq') in H1 as (H1 & H3). cbn in H3. injection H3 as H3. unfold ea in H3. assert (j1 = j) as -> by lia. split; [eexists; exact H1|auto].
    + destruct p as [|[|p]]; cbn in H2; try discriminate; injection H2 as H2; unfold ec, eA in H2; lia.
  - intros [Ha N]. destruct (St i Hi N Ha) as (x & H1). pose proof (l_fwd _ _ _ _ _ _ _ _ L _ _ _ _ _ _ Hq' H1 eq_refl) as H2.
    destruct (expo_clo _ _ _ _ (eA i) [ec i] H2) as (y & H3); [reflexivity|now constructor|]. eexists. exact H3.
Qed.

Lemma alive_word w : (forall i, In i w -> i < n) -> exists q, q < length (t_states t) /\ forall i, i < m -> (alive q i <-> ~ In i w).
Proof.
  induction w as [|j w IH]; intros Hw.
  - exists 0. split; [eapply has_row; apply (l_start _ _ _ _ _ _ _ _ L)|]. intros i Hi. split; [intros _ []|intros _; now apply alive_zero].
  - destruct IH as (q & Hq & Ha); [intros i Hi; apply Hw; now right|]. assert (j < n) by (apply Hw; now left). destruct (alive_step q j) as (q' & Hq' & Ha').
    + unfold m; lia.
    + exists n. split; [unfold m; lia|]. split; [lia|]. apply Ha; [unfold m; lia|]. intros Hn. specialize (Hw n (or_intror Hn)). lia.
    + exists q'. split; auto. intros i Hi. rewrite Ha', Ha by auto. cbn. split; [intros [N1 N2] [E|E]; auto|intros N; split; auto].
Qed.

Lemma codes_nodup l : NoDup (codes l).
Proof.
  induction l; cbn [codes]; [repeat constructor; intros []|]. apply WopP.NoDup_app_intro.
  - apply FinFun.Injective_map_NoDup; auto. intros a b E. now injection E.
  - apply FinFun.Injective_map_NoDup; auto. intros a b E. now injection E.
  - intros x H1 H2. apply in_map_iff in H1 as (a & <- & _). apply in_map_iff in H2 as (b & E & _). discriminate.
Qed.
Lemma codes_len l c : In c (codes l) -> length c = l.
Proof. revert c. induction l; intros c; cbn [codes]; [intros [<-|[]]; auto|]. intros [H|H]%in_app_or; apply in_map_iff in H as (d & <- & Hd); cbn; f_equal; auto. Qed.

Definition opens (row : state nat) (i : nat) : bool := negb (existsb (fun pos => Nat.eqb (p_rule pos) (eA i) && Nat.eqb (p_point pos) 0) row).
Lemma opens_iff q row i : nth_error (t_states t) q = Some row -> (opens row i = false <-> alive q i).
Proof.
  intros E. unfold opens. rewrite negb_false_iff, existsb_exists. split.
  - intros ([A pr p l] & H & Eb). cbn [p_rule p_point] in Eb. apply andb_true_iff in Eb as (E1 & E2). apply Nat.eqb_eq in E1, E2. subst. exists pr, row, l. auto.
  - intros (pr & row' & l & E' & H). assert (row' = row) as -> by congruence. eexists. split; [exact H|]. cbn. now rewrite Nat.eqb_refl.
Qed.

Lemma expo_states : 2 ^ n <= length (t_states t).
Proof.
  rewrite <- codes_length, <- (map_length (fun row => map (opens row) (seq 0 n)) (t_states t)). apply NoDup_incl_length; [apply codes_nodup|].
  intros c Hc%codes_len. destruct (alive_word (filter (fun i => nth i c false) (seq 0 n))) as (q & Hq & Ha).
  { intros i Hi. apply filter_In in Hi as (Hi & _). apply in_seq in Hi. lia. }
  destruct (nth_error (t_states t) q) as [row|] eqn:Er; [|apply nth_error_None in Er; lia].
  apply in_map_iff. exists row. split; [|eapply nth_error_In; eauto].
  apply (nth_ext _ _ false false); [now rewrite map_length, seq_length|]. intros i Hi. rewrite map_length, seq_length in Hi.
  rewrite (nth_indep _ false (opens row 0)), map_nth, seq_nth by (rewrite ?map_length, ?seq_length; auto). cbn [Nat.add].
  specialize (Ha i ltac:(unfold m; lia)). rewrite <- (opens_iff _ _ _ Er) in Ha. destruct (opens row i), (nth i c false) eqn:Ec; auto.
  - assert (true = false) by (apply Ha; intros H; apply filter_In in H as (_ & H); congruence). auto.
  - exfalso. apply Ha; auto. apply filter_In. split; [apply in_seq; lia|auto].
Qed.

(** *** no conflicts: a state with a complete item has no other *)
Lemma kernel_sym q A pr p B pr' p' : has q A pr (S p) -> has q B pr' (S p') ->
  exists q0 X, has q0 A pr p /\ has q0 B pr' p' /\ nth_error (fst pr) p = Some X /\ nth_error (fst pr') p' = Some X.
Proof.
  intros H1 H2. assert (q <> 0) as NZ by (intros ->; apply (l_zero _ _ _ _ _ _ _ _ L) in H1; discriminate).
  destruct (R q NZ (has_row _ _ _ _ _ H1)) as (q0 & X & Hq).
  destruct (l_back _ _ _ _ _ _ _ _ L _ _ _ _ _ _ Hq H1), (l_back _ _ _ _ _ _ _ _ L _ _ _ _ _ _ Hq H2). eauto 8.
Qed.
Lemma kernel_open' q A pr p : just g 0 p0 (t_states t) q A pr p -> q <> 0 -> p = 0 -> exists B pr' p X, has q B pr' (S p) /\ nth_error (fst pr') (S p) = Some X.
Proof.
  intros H. induction H as [|q A pr p H|q A pr p B i rhs J IH Hn Hp]; intros NZ Ez; [now destruct NZ|discriminate|].
  destruct p as [|p]; [now apply IH|]. exists A, pr, p, B. split; auto. eapply just_has; eauto.
Qed.
Lemma kernel_open q A pr : q <> 0 -> has q A pr 0 -> exists B pr' p X, has q B pr' (S p) /\ nth_error (fst pr') (S p) = Some X.
Proof. intros NZ H. apply (l_just _ _ _ _ _ _ _ _ L) in H. eapply kernel_open'; eauto. Qed.
Lemma kernel_same q A pr p B pr' p' : has q A pr (S p) -> has q B pr' (S p') -> nth_error (fst pr) (S p) = None -> A = B /\ pr = pr' /\ p = p'.
Proof.
  intros H1 H2 Hn. pose proof H1 as (E1 & L1 & P1)%expo_valid. pose proof H2 as (E2 & L2 & P2)%expo_valid.
  destruct (kernel_sym _ _ _ _ _ _ _ H1 H2) as (q0 & X & K1 & K2 & N1 & N2). destruct pr as [rhs x], pr' as [rhs' y]. cbn [fst snd] in *.
  enough (A = B /\ rhs = rhs' /\ p = p') as (-> & -> & ->) by (split; auto; split; auto; f_equal; eapply expo_index; eauto).
  destruct E1 as [|i Hi|i j Hi Hj Nj|i Hi], E2 as [|i' Hi'|i' j' Hi' Hj' Nj'|i' Hi']; destruct p as [|[|[|p]]]; cbn in N1, Hn; try discriminate; destruct p' as [|[|[|p']]]; cbn in N2; try discriminate;
    injection N1 as <-; apply (f_equal (fun o => match o with Some x => x | None => 0 end)) in N2; cbv beta iota in N2; unfold eA, ea, ec in N2; try lia; auto; try (assert (i' = i) as -> by lia); auto.
  - exfalso. apply expo_S in K1 as ->. apply (l_zero _ _ _ _ _ _ _ _ L) in K2. discriminate.
  - exfalso. apply expo_S in K2 as ->. apply (l_zero _ _ _ _ _ _ _ _ L) in K1. discriminate.
  - destruct (kernel_sym _ _ _ _ _ _ _ K1 K2) as (_ & X & _ & _ & M1 & M2). change (Some (ea j) = Some X) in M1. change (Some (ea j') = Some X) in M2. assert (ea j = ea j') as E by congruence. unfold ea in E. assert (j' = j) as -> by lia. auto.
Qed.
Lemma complete_only q A pr p B pr' p' : has q A pr p -> has q B pr' p' -> nth_error (fst pr) p = None -> A = B /\ pr = pr' /\ p = p'.
Proof.
  intros H1 H2 Hn. destruct p as [|p].
  { apply expo_valid in H1 as (E & _). destruct (fst pr); [|discriminate]. inversion E. }
  assert (q <> 0) as NZ by (intros ->; apply (l_zero _ _ _ _ _ _ _ _ L) in H1; discriminate).
  destruct p' as [|p'].
  - exfalso. destruct (kernel_open _ _ _ NZ H2) as (C & pr2 & p2 & X & H3 & H4). destruct (kernel_same _ _ _ _ _ _ _ H1 H3 Hn) as (-> & -> & ->). congruence.
  - destruct (kernel_same _ _ _ _ _ _ _ H1 H2 Hn) as (-> & -> & ->). auto.
Qed.

Lemma expo_plain q row x a b : nth_error (t_actions t) q = Some row -> bm_get x row <> Some (Conflict a b).
Proof.
  intros Hr Hx. destruct (table_exact _ _ _ _ _ W Hg _ _ Hm) as (go & _ & _ & HT). destruct (HT _ _ Hr) as (_ & _ & HC).
  destruct (proj1 (HC x)) as (a' & b' & D1 & D2 & Nab); [eauto|]. clear HT HC Hx a b Hr row. apply Nab. clear Nab.
  assert (Hd : forall row pos, nth_error (t_states t) q = Some row -> In pos row -> has q (p_rule pos) (p_seq pos) (p_point pos)) by (intros row [A pr p l] H1 H2; exists row, l; auto).
  assert (Key : forall row pos row' pos', nth_error (t_states t) q = Some row -> In pos row -> nth_error (t_states t) q = Some row' -> In pos' row' -> at_dot pos = None -> p_rule pos = p_rule pos' /\ p_seq pos = p_seq pos' /\ at_dot pos' = None).
  { intros r1 s1 r2 s2 E1 I1 E2 I2 N. destruct (complete_only _ _ _ _ _ _ _ (Hd _ _ E1 I1) (Hd _ _ E2 I2)) as (Ea & Eb & Ec); [exact N|]. split; auto. split; auto. unfold at_dot in *. congruence. }
  destruct D1 as [r1 s1 x E1 I1 T1 Y1|r1 s1 x E1 I1 T1 Y1|r1 s1 x E1 I1 T1 A1 Y1|r1 s1 x E1 I1 T1 A1 Y1];
  inversion D2 as [r2 s2 x' E2 I2 T2 Y2|r2 s2 x' E2 I2 T2 Y2|r2 s2 x' E2 I2 T2 A2 Y2|r2 s2 x' E2 I2 T2 A2 Y2]; subst; auto;
  try (now destruct (Y1 Y2)); try (now destruct (Y2 Y1));
  try (destruct (Key _ _ _ _ E1 I1 E2 I2 T1) as (? & ? & ?); congruence); destruct (Key _ _ _ _ E2 I2 E1 I1 T2) as (? & ? & ?); congruence.
Qed.
Lemma expo_clean : conflicts (t_actions t) = [].
Proof.
  unfold conflicts. destruct (filter is_conflict _) as [|a l] eqn:E; auto. exfalso.
  assert (In a (filter is_conflict (flat_map bm_values (t_actions t)))) as H by (rewrite E; now left). apply filter_In in H as (H & Ha). apply in_flat_map in H as (row & Hr & H).
  apply In_nth_error in Hr as (q & Hr). destruct (table_exact _ _ _ _ _ W Hg _ _ Hm) as (go & _ & _ & HT). destruct (HT _ _ Hr) as (Hs & _).
  unfold bm_values in H. apply in_map_iff in H as ([x a'] & Ea & Hx). cbn [snd] in Ea. subst a'. apply (bm_in_get _ _ _ Hs) in Hx.
  destruct a; try discriminate. exact (expo_plain _ _ _ _ _ Hr Hx).
Qed.
End Expo.

(** *** the tables exist *)
Lemma expo_noempty m : noempty (expo m).
Proof. intros A i rhs H. apply expo_prod in H. inversion H; discriminate. Qed.
Lemma eA_inj i j : eA i = eA j -> i = j. Proof. unfold eA. lia. Qed.
Lemma expo_rank (P : nat -> nat -> Prop) : (forall A B, P A B -> (match B with 0 => 2 | 1 => 1 | _ => 0 end) < (match A with 0 => 2 | 1 => 1 | _ => 0 end)) -> forall A, ~ clos_trans _ P A A.
Proof.
  intros H. enough (forall A B, clos_trans _ P A B -> (match B with 0 => 2 | 1 => 1 | _ => 0 end) < (match A with 0 => 2 | 1 => 1 | _ => 0 end)) as K by (intros A HA; apply K in HA; lia).
  intros A B C. induction C; [auto|lia].
Qed.
Lemma expo_left m : no_left_cycle (expo m).
Proof.
  unfold no_left_cycle, no_right_cycle. apply expo_rank. intros A B (i & v & H & N & NE). apply expo_prod in H. apply nonterm_expo in N. inversion H; subst; cbn; try lia.
  - unfold ea in N. destruct N as [N|[N|(k & _ & N)]]; unfold eA in *; lia.
  - unfold ec in N. destruct N as [N|[N|(k & _ & N)]]; unfold eA in *; lia.
Qed.
Lemma expo_right m : no_right_cycle (expo m).
Proof.
  unfold no_left_cycle, no_right_cycle. apply expo_rank. intros A B (i & u & H & N & NE). apply expo_prod in H. apply nonterm_expo in N.
  destruct u as [|x [|y u]]; cbn [app] in H; inversion H; subst; cbn; try lia; try congruence; try (destruct u; discriminate).
  unfold ec in N. destruct N as [N|[N|(k & _ & N)]]; unfold eA in *; lia.
Qed.
Lemma expo_eof m : term (expo m) 2.
Proof. intros H. apply nonterm_expo in H as [H|[H|(i & _ & H)]]; unfold eA in *; lia. Qed.

Lemma expo_grammar m dbg : exists g, grammar_new dbg 0 (expo m) 2 = Val g.
Proof.
  apply (grammar_new_ok dbg 0 2 (expo m)).
  - apply nonterm_expo. auto.
  - assert (forall i rhs, prod_at (expo m) 0 i rhs -> i = 0) as K.
    { unfold expo. intros i rhs H. apply grammar_map_get in H as (ps & [E|[E|H]] & Hn); [..|apply expo_nodup]; [|discriminate|apply in_map_iff in H as (k & E & _); discriminate].
      injection E as <-. destruct i as [|[|i]]; auto; discriminate. }
    split; [|intros _; exact K]. destruct (prod_expo m 0 [1]) as (i & Hi); [constructor|]. rewrite (K _ _ Hi) in Hi. eauto.
Qed.

Theorem expo_all n dbg : exists g, grammar_new dbg 0 (expo (S n)) 2 = Val g /\ forall k, exists t, makes k dbg g t /\
  conflicts (t_actions t) = [] /\ 2 ^ n <= length (t_states t).
Proof.
  destruct (expo_grammar (S n) dbg) as (g & Hg). exists g. split; auto. intros k. pose proof (grammar_map_wf (expo_list (S n)) : wf_rules (expo (S n))) as W.
  destruct (tabler_total_only _ _ _ _ _ W Hg (expo_noempty _) (expo_eof _) (expo_left _) (expo_right _)) as (tb & Ht & _).
  destruct (with_table_total _ _ _ _ _ W Hg k tb Ht) as (_ & t & _ & Hm). exists t. split; auto.
  destruct (Wp0 _ _ _ _ _ W Hg) as (p0 & Hp0 & _). destruct (makes_made _ _ _ _ _ W Hg _ _ _ Hm Hp0) as (sfk & lookf & X).
  pose proof (m_lr0 _ _ _ _ _ _ _ _ _ _ X) as L. split; [|eapply expo_states; eauto].
  eapply expo_clean; eauto. destruct (makes_states _ _ _ _ _ W Hg _ _ Hm) as (_ & HR & _).
  intros q Nq Lq. destruct (HR q Lq) as (qs & xs & P). inversion P as [|q' ms x ys n' P1 Mv]; subst; [now destruct Nq|].
  exists q', x. now apply (moves_tr _ _ _ _ _ _ _ _ _ _ L).
Qed.

(** the size of the rules *)
Definition count (rules : list (nat * list (list nat))) : nat := length (concat (map snd rules)).
Lemma filter_one i l : NoDup l -> In i l -> S (length (filter (fun j => negb (Nat.eqb j i)) l)) = length l.
Proof.
  induction l as [|a l IH]; intros N H; [destruct H|]. destruct H as [E|H]; inversion N as [|? ? N1 N2]; subst; cbn [filter length].
  - rewrite Nat.eqb_refl. cbn [negb]. f_equal. clear - N1. induction l as [|b l IH]; auto. cbn [filter]. destruct (Nat.eqb_spec b i) as [->|Nb]; [destruct N1; now left|]. cbn [negb length]. f_equal. apply IH. intros H. apply N1. now right.
  - destruct (Nat.eqb_spec a i) as [->|Na]; [contradiction|]. cbn [negb length]. now rewrite IH.
Qed.
Lemma expo_count m : count (expo_list m) = 1 + m + m * m.
Proof.
  unfold count, expo_list. cbn [map snd concat]. rewrite app_length, app_length, map_length, seq_length, map_map. cbn [snd length].
  enough (forall l, incl l (seq 0 m) -> length (concat (map (fun i => map (fun j => [ea j; eA i]) (filter (fun j => negb (Nat.eqb j i)) (seq 0 m)) ++ [[ec i]]) l)) = length l * m) as H.
  { rewrite H by apply incl_refl. rewrite seq_length. lia. }
  induction l as [|i l IH]; intros Hl; cbn [map concat length]; auto. rewrite !app_length, map_length, IH by (intros x Hx; apply Hl; now right). cbn [length].
  pose proof (filter_one i (seq 0 m) (seq_NoDup _ _) (Hl i (or_introl eq_refl))) as E. rewrite seq_length in E. lia.
Qed.
Lemma expo_short m A i rhs : prod_at (expo m) A i rhs -> length rhs <= 2.
Proof. intros H. apply expo_prod in H. inversion H; cbn; lia. Qed.
