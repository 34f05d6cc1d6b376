(** How many rounds the closures take, and how many turns the loop over the states (C128) *)
From Coq Require Import List Bool Arith Lia.
From Verif Require Import BTree Model Base Spec SpecP GrammarP FirstFollow Closure Interface Mono Canon CanonLR Wrap Final.
Import ListNotations.

(** ** walks need not visit a place twice *)
Section Short.
Context {A : Type} {OA : Ord A}.
Variable R : A -> A -> Prop.

(** the places visited on a walk from [x], the last one first *)
Inductive trail (x : A) : list A -> Prop :=
| trail_one : trail x [x]
| trail_more y z l : trail x (y :: l) -> R y z -> trail x (z :: y :: l).

Lemma trail_suffix x l1 y l2 : trail x (l1 ++ y :: l2) -> trail x (y :: l2).
Proof. induction l1 as [|z l1 IH]; cbn [app]; auto. intros H. apply IH. inversion H; [destruct l1; discriminate|]; subst. destruct l1; cbn [app] in *; congruence. Qed.

Lemma trail_short x l : trail x l -> exists y l0 l1, l = y :: l0 /\ trail x (y :: l1) /\ NoDup (y :: l1).
Proof.
  induction 1 as [|y z l H (y' & l0 & l1 & E & H1 & H2) HR].
  - exists x, [], []. split; auto. split; [constructor|]. constructor; [intros []|constructor].
  - injection E as <- <-. exists z, (y :: l). destruct (in_dec ord_dec z (y :: l1)) as [Hi|Hn].
    + apply in_split in Hi as (a & b & E). exists b. split; auto. rewrite E in H1, H2. split; [eapply trail_suffix; eauto|].
      clear - H2. induction a; auto. inversion H2; auto.
    + exists (y :: l1). split; auto. split; [now constructor|]. now constructor.
Qed.

Lemma trail_in x l U : trail x l -> In x U -> (forall u v, R u v -> In v U) -> incl l U.
Proof. intros H Hx HU. induction H as [|y z l H IH HR]; intros v [<-|Hv]; eauto. destruct Hv. Qed.

Lemma trail_bound x y l U : trail x (y :: l) -> In x U -> (forall u v, R u v -> In v U) -> exists l', trail x (y :: l') /\ length (y :: l') <= length U.
Proof.
  intros H Hx HU. destruct (trail_short _ _ H) as (y' & l0 & l1 & E & H1 & H2). injection E as <- <-. exists l1. split; auto.
  apply NoDup_incl_length; auto. eapply trail_in; eauto.
Qed.
End Short.

Section Rounds.
Context {T : Type} {OT : Ord T}.
Variable g : grammar T.
Notation rules := (g_rules g).
Hypothesis W : wf_rules rules.

(** found after at most [n] rounds *)
Inductive clon (lk : position T -> bset T) (seed : state T) : nat -> position T -> Prop :=
| clon_seed n p : In p seed -> clon lk seed n p
| clon_yield n p q : clon lk seed n p -> yields g lk p q -> clon lk seed (S n) q.

Lemma clon_le lk seed n m p : clon lk seed n p -> n <= m -> clon lk seed m p.
Proof. intros H. revert m. induction H; intros m L; [now constructor|]. destruct m; [lia|]. eapply clon_yield; [apply IHclon; lia|eauto]. Qed.
Lemma clon_clo lk seed n p : clon lk seed n p -> clo g lk seed p.
Proof. induction 1; [now constructor|]. eapply clo_yield; eauto. Qed.

Lemma rounds_bound lk closure seed N : closure_ok g lk closure -> sorted seed -> (forall p, clo g lk seed p -> clon lk seed N p) ->
  exists c, forall fuel, N < fuel -> prop_closure closure fuel seed = Val c.
Proof.
  intros Hc Hs HN.
  assert (G : forall fuel n s, sorted s -> n + fuel = N -> (forall q, In q s <-> clon lk seed n q) -> exists c, prop_closure closure (S fuel) s = Val c).
  { induction fuel as [|fuel IH]; intros n s Ss E Hq; unfold prop_closure in *; cbn [transitive]; destruct (Hc s) as (s' & E' & S' & H'); rewrite E'; cbn [bind].
    - assert (s' = s) as ->; [|rewrite eqb_refl; eauto]. apply sorted_ext; auto. intros q. rewrite H'. split; auto.
      intros [H|(p & Hp & Hy)]; auto. apply Hq. replace n with N by lia. apply HN. eapply clo_yield; eauto. apply Hq in Hp. eapply clon_clo; eauto.
    - destruct (eqb_spec s' s) as [Eq|Nq]; [eauto|]. apply (IH (S n)); auto; [lia|]. intros q. rewrite H'. split.
      + intros [H|(p & Hp & Hy)]; [apply Hq in H; eapply clon_le; eauto|]. apply Hq in Hp. eapply clon_yield; eauto.
      + intros H. inversion H; subst; [left; apply Hq; now constructor|]. right. exists p. split; auto. apply Hq. auto. }
  destruct (G N 0 seed Hs eq_refl) as (c & E).
  - intros q. split; [now constructor|]. intros H. inversion H; auto.
  - exists c. intros fuel L. unfold prop_closure. eapply transitive_mono; eauto.
Qed.

Definition nts : list T := bm_keys rules.
Lemma nts_in A r : bm_get A rules = Some r -> In A nts.
Proof. intros E. apply bm_get_keys. eauto. Qed.

(** ** Slr: the nonterminals at the left end *)
Definition corner (A B : T) : Prop := exists r pr r', bm_get A rules = Some r /\ In pr (r_prods r) /\ nth_error (fst pr) 0 = Some B /\ bm_get B rules = Some r'.
Lemma corner_in u v : corner u v -> In v nts.
Proof. intros (r & pr & r' & _ & _ & _ & E). eapply nts_in; eauto. Qed.

Lemma ptop_new (B : T) (pr : production T) l : ptop (mkPos B pr 0 l : position T) = nth_error (fst pr) 0.
Proof. reflexivity. Qed.

(** every position that is not in the seed comes from one that is, by way of nonterminals at the left end *)
Lemma clo_trail lk seed q : clo g lk seed q -> In q seed \/ exists p B B' r pr l trl, In p seed /\ ptop p = Some B /\
  (exists r', bm_get B rules = Some r') /\ trail corner B (B' :: trl) /\ bm_get B' rules = Some r /\ In pr (r_prods r) /\ q = mkPos B' pr 0 l.
Proof.
  induction 1 as [p Hp|p q Hp IH (B & r & pr & E1 & E2 & E3 & ->)]; auto. right. destruct IH as [IH|(p1 & B1 & B' & r1 & pr1 & l1 & trl & K1 & K2 & K3 & K4 & K5 & K6 & ->)].
  - exists p, B, B, r, pr, (lk p), []. split; auto. split; auto. split; eauto. split; [constructor|auto].
  - exists p1, B1, B, r, pr, (lk (mkPos B' pr1 0 l1)), (B' :: trl). split; auto. split; auto. split; auto. split; [|auto].
    constructor; auto. exists r1, pr1, r. auto.
Qed.

(** ... in as many rounds, up to lookaheads *)
Lemma trail_clon lk seed p B : In p seed -> ptop p = Some B -> forall trl, trail corner B trl -> forall B' l', trl = B' :: l' ->
  forall r pr, bm_get B' rules = Some r -> In pr (r_prods r) -> exists p', clon lk seed (length l') p' /\ yields g lk p' (mkPos B' pr 0 (lk p')).
Proof.
  intros Hp Ht trl Htr. induction Htr as [|y z l H IH (r1 & pr1 & r1' & C1 & C2 & C3 & C4)]; intros B' l' E r pr Er Hpr; inversion E; subst.
  - exists p. split; [now constructor|]. exists B', r, pr. auto.
  - destruct (IH _ _ eq_refl _ _ C1 C2) as (p' & Hc & Hy). exists (mkPos y pr1 0 (lk p')). split; [cbn [length]; eapply clon_yield; eauto|].
    exists B', r, pr. auto.
Qed.

Lemma core_rounds lk seed q : clo g lk seed q -> In q seed \/ p_point q = 0 /\ exists p' n, S n <= length nts /\ clon lk seed n p' /\ yields g lk p' (mkPos (p_rule q) (p_seq q) 0 (lk p')).
Proof.
  intros [H|(p & B & B' & r & pr & l & trl & K1 & K2 & (r' & K3) & K4 & K5 & K6 & ->)]%clo_trail; auto. right. split; auto.
  destruct (trail_bound corner _ _ _ nts K4 (nts_in _ _ K3) corner_in) as (l' & H1 & H2).
  destruct (trail_clon lk seed p B K1 K2 _ H1 _ _ eq_refl r pr K5 K6) as (p' & Hc & Hy). exists p', (length l'). auto.
Qed.

Lemma clo_look lk seed q : clo g lk seed q -> In q seed \/ exists p, clo g lk seed p /\ yields g lk p q /\ q = mkPos (p_rule q) (p_seq q) 0 (lk p).
Proof. intros H. inversion H as [|p ? Hp Hy]; subst; auto. right. exists p. split; auto. split; auto. destruct Hy as (B & r & pr & _ & _ & _ & ->). reflexivity. Qed.

Lemma slr_rounds seed q : clo g slr_lk seed q -> clon slr_lk seed (length nts) q.
Proof.
  intros H. destruct (clo_look _ _ _ H) as [Hi|(p & _ & _ & E)]; [now constructor|].
  destruct (core_rounds _ _ _ H) as [Hi|(_ & p' & n & L & Hc & Hy)]; [now constructor|].
  apply clon_le with (S n); auto. rewrite E. change (slr_lk p) with (slr_lk p'). eapply clon_yield; eauto.
Qed.

(** ** Clr and Lalr: a lookahead is made once and then handed on by unit rules *)
Definition single_of (A B : T) : Prop := exists r pr r', bm_get A rules = Some r /\ In pr (r_prods r) /\ fst pr = [B] /\ bm_get B rules = Some r'.
Lemma single_in u v : single_of u v -> In v nts.
Proof. intros (r & pr & r' & _ & _ & _ & E). eapply nts_in; eauto. Qed.

Lemma handed first seed q : clo g (clr_lk first) seed q -> In q seed \/ exists p B B' r pr trl, clo g (clr_lk first) seed p /\
  (In p seed \/ p_point p = 0 /\ pnext p <> None) /\ ptop p = Some B /\ (exists r', bm_get B rules = Some r') /\
  trail single_of B (B' :: trl) /\ bm_get B' rules = Some r /\ In pr (r_prods r) /\ q = mkPos B' pr 0 (clr_lk first p).
Proof.
  induction 1 as [p Hp|p q Hp IH (B & r & pr & E1 & E2 & E3 & ->)]; auto. right.
  assert (In p seed \/ p_point p = 0 /\ pnext p <> None -> exists p0 B0 B' r0 pr0 trl, clo g (clr_lk first) seed p0 /\
    (In p0 seed \/ p_point p0 = 0 /\ pnext p0 <> None) /\ ptop p0 = Some B0 /\ (exists r', bm_get B0 rules = Some r') /\
    trail single_of B0 (B' :: trl) /\ bm_get B' rules = Some r0 /\ In pr0 (r_prods r0) /\ mkPos B pr 0 (clr_lk first p) = mkPos B' pr0 0 (clr_lk first p0)) as Gen.
  { intros Hd. exists p, B, B, r, pr, []. split; auto. split; auto. split; auto. split; eauto. split; [constructor|auto]. }
  destruct IH as [IH|(p1 & B1 & B' & r1 & pr1 & trl & K0 & K1 & K2 & K3 & K4 & K5 & K6 & Ep)]; auto.
  destruct (pnext p) as [X|] eqn:En; [apply Gen; right; split; [now rewrite Ep|discriminate]|].
  exists p1, B1, B, r, pr, (B' :: trl). split; auto. split; auto. split; auto. split; auto. split.
  - constructor; auto. exists r1, pr1, r. rewrite Ep in E1, En. unfold ptop, pnext, peek in E1, En. cbn [p_seq p_point] in E1, En.
    destruct pr1 as [[|a [|b rhs]] i]; cbn in E1, En; try discriminate. injection E1 as ->. cbn [fst]. auto.
  - split; auto. split; auto. f_equal. unfold clr_lk at 1. rewrite En. now rewrite Ep.
Qed.

Lemma single_clon first seed p n B : clon (clr_lk first) seed n p -> ptop p = Some B -> forall trl, trail single_of B trl -> forall B' l', trl = B' :: l' ->
  forall r pr, bm_get B' rules = Some r -> In pr (r_prods r) -> clon (clr_lk first) seed (n + length trl) (mkPos B' pr 0 (clr_lk first p)).
Proof.
  intros Hp Ht trl Htr. induction Htr as [|y z l H IH (r1 & pr1 & r1' & C1 & C2 & C3 & C4)]; intros B' l' E r pr Er Hpr; inversion E; subst.
  - rewrite Nat.add_1_r. apply clon_yield with p; auto. exists B', r, pr. auto.
  - specialize (IH _ _ eq_refl _ _ C1 C2). cbn [length] in *. rewrite Nat.add_succ_r. eapply clon_yield; [exact IH|].
    exists B', r, pr. unfold ptop, peek. cbn [p_seq p_point Nat.add]. rewrite C3. split; auto. split; auto. split; auto.
    f_equal. unfold clr_lk at 2, pnext, peek. cbn [p_seq p_point p_look Nat.add]. now rewrite C3.
Qed.

Lemma clr_rounds first seed q : clo g (clr_lk first) seed q -> clon (clr_lk first) seed (2 * length nts) q.
Proof.
  intros [H|(p & B & B' & r & pr & trl & K0 & K1 & K2 & (r' & K3) & K4 & K5 & K6 & ->)]%handed; [now constructor|].
  destruct (trail_bound single_of _ _ _ nts K4 (nts_in _ _ K3) single_in) as (l' & H1 & H2).
  assert (exists p' n, n <= length nts /\ clon (clr_lk first) seed n p' /\ ptop p' = Some B /\ clr_lk first p' = clr_lk first p) as (p' & n & L & Hc & Ht & <-).
  { destruct K1 as [K1|(E & Hn)]; [exists p, 0; split; [lia|]; split; [now constructor|auto]|].
    destruct (core_rounds _ _ _ K0) as [Hi|(_ & p' & n & L & Hc & Hy)]; [exists p, 0; split; [lia|]; split; [now constructor|auto]|].
    exists (mkPos (p_rule p) (p_seq p) 0 (clr_lk first p')), (S n). split; auto. split; [eapply clon_yield; eauto|].
    unfold ptop, clr_lk, pnext, peek in *. cbn [p_seq p_point]. rewrite E in *. split; auto. destruct (nth_error (fst (p_seq p)) (0 + 1)); auto. now destruct Hn. }
  apply clon_le with (n + length (B' :: l')); [|lia]. eapply single_clon; eauto.
Qed.
End Rounds.

(** ** the loop over the states *)
Section Turns.
Context {T : Type} {OT : Ord T}.
Variables (dbg : bool) (closure : state T -> res (state T)) (N : nat).
Hypothesis HN : forall seed, sorted seed -> exists c, forall fuel, N < fuel -> prop_closure closure fuel seed = Val c.

Lemma goto_enough c1 c2 ks row X : N < c1 -> N < c2 -> goto_kernel closure c1 ks row X = goto_kernel closure c2 ks row X.
Proof.
  intros L1 L2. unfold goto_kernel. destruct (HN (sym_filter row X) (sym_filter_sorted row X)) as (c & E). now rewrite !E.
Qed.
Lemma syms_enough c1 c2 syms row st : N < c1 -> N < c2 -> proc_syms dbg closure c1 syms row st = proc_syms dbg closure c2 syms row st.
Proof.
  intros L1 L2. unfold proc_syms. revert st. induction syms as [|X syms IH]; intros [ks sts]; cbn [foldM]; auto.
  rewrite (goto_enough c1 c2) by auto. destruct (goto_kernel closure c2 ks row X) as [o| |]; cbn [bind]; auto.
  destruct (match o with Some _ => _ | None => _ end); cbn [bind]; auto.
Qed.
Lemma rows_enough c1 c2 syms fuel idx st : N < c1 -> N < c2 -> proc_rows dbg closure c1 syms fuel idx st = proc_rows dbg closure c2 syms fuel idx st.
Proof.
  intros L1 L2. revert idx st. induction fuel as [|fuel IH]; intros idx st; cbn [proc_rows]; auto. destruct (nth_error (snd st) idx) as [row|]; auto.
  rewrite (syms_enough c1 c2) by auto. destruct (proc_syms dbg closure c2 syms row st); cbn [bind]; auto.
Qed.

Lemma syms_grow c syms row st st' : proc_syms dbg closure c syms row st = Val st' -> length (snd st) <= length (snd st').
Proof.
  unfold proc_syms. revert st. induction syms as [|X syms IH]; intros [ks sts] E; cbn [foldM] in E; [injection E as <-; auto|].
  apply bind_val in E as ([ks1 sts1] & E1 & E2). apply IH in E2. cbn [snd] in *. apply bind_val in E1 as ([[kernel cl]|] & _ & E1).
  - apply bind_val in E1 as (_ & _ & E1). injection E1 as <- <-. rewrite app_length in E2. cbn [length] in E2. lia.
  - injection E1 as <- <-. auto.
Qed.

Lemma rows_turns c syms f1 : forall idx st st', proc_rows dbg closure c syms f1 idx st = Val st' -> idx <= length (snd st) ->
  idx <= length (snd st') /\ forall f2, (length (snd st') - idx < f2 -> proc_rows dbg closure c syms f2 idx st = Val st') /\
    (f2 <= length (snd st') - idx -> proc_rows dbg closure c syms f2 idx st = Fuel).
Proof.
  induction f1 as [|f1 IH]; intros idx st st' E Li; cbn [proc_rows] in E; [discriminate|].
  destruct (nth_error (snd st) idx) as [row|] eqn:Er.
  - apply bind_val in E as (st1 & E1 & E2). pose proof (syms_grow _ _ _ _ _ E1) as Gr.
    assert (idx < length (snd st)) as Lt by (apply nth_error_Some; congruence).
    destruct (IH (S idx) st1 st' E2) as (L & H); [lia|]. split; [lia|]. intros [|f2]; cbn [proc_rows]; [split; [lia|auto]|].
    rewrite Er, E1. cbn [bind]. destruct (H f2) as (Ha & Hb). split; intros; [apply Ha|apply Hb]; lia.
  - injection E as <-. split; auto. pose proof (proj1 (nth_error_None _ _) Er) as Ln. intros [|f2]; cbn [proc_rows]; [split; [lia|auto]|]. rewrite Er. split; auto. lia.
Qed.
End Turns.

Section Work.
Context {T : Type} {OT : Ord T}.
Variables (dbg : bool) (start eof : T) (rules : rulemap T) (g : grammar T).
Hypothesis W : wf_rules rules.
Hypothesis Hg : grammar_new dbg start rules eof = Val g.

Definition rounds (k : method) : nat := match k with SLR => length rules | _ => 2 * length rules end.

Lemma closure_rounds k t : tabler_makes dbg g t -> forall seed, sorted seed ->
  exists c, forall fuel, rounds k < fuel -> prop_closure (closure_fn k t) fuel seed = Val c.
Proof.
  intros Ht seed Hs. pose proof (tmakes_facts _ _ _ _ _ W Hg _ Ht) as F. pose proof (tf_grammar _ _ _ _ _ _ F) as Eg. pose proof (Wr _ _ _ _ _ Hg) as Er.
  assert (length (nts g) = length rules) as El by (unfold nts, bm_keys; rewrite map_length; now rewrite Er).
  unfold rounds. rewrite <- El. unfold closure_fn. rewrite Eg.
  destruct k; eapply rounds_bound; eauto using slr_closure_ok, clr_closure_ok, slr_rounds, clr_rounds.
Qed.

Lemma closures_turns lk closure N : closure_ok g lk closure -> (forall seed, sorted seed -> exists c, forall fuel, N < fuel -> prop_closure closure fuel seed = Val c) ->
  forall f1 ks sts, proc_closures dbg closure f1 g = Val (ks, sts) -> forall f2, N < f2 ->
  (length sts < f2 -> proc_closures dbg closure f2 g = Val (ks, sts)) /\ (f2 <= length sts -> proc_closures dbg closure f2 g = Fuel).
Proof.
  intros Hc HN f1 ks sts E f2 L2. assert (exists f3, N < f3 /\ proc_closures dbg closure f3 g = Val (ks, sts)) as (f3 & L3 & E3).
  { exists (max f1 (S N)). split; [lia|]. eapply rle_val; [apply (proc_closures_rle closure dbg f1); lia|exact E]. }
  clear f1 E. unfold proc_closures in *.
  assert (sorted [g_basis g]) as Hs by (split; [intros ? []|exact I]).
  destruct (HN _ Hs) as (c & Hb). rewrite Hb in E3 |- * by auto. cbn [bind] in *.
  rewrite (rows_enough dbg closure N HN f3 f2) in E3 by auto.
  destruct (rows_turns dbg closure f2 _ _ _ _ _ E3 (Nat.le_0_l _)) as (_ & H). destruct (H f2) as (Ha & Hb'). cbn [snd] in *. rewrite Nat.sub_0_r in *. auto.
Qed.

(** one turn for each state, and one to see that there are no more *)
Lemma states_turns k t t' : k <> LALR -> tabler_makes dbg g t -> makes k dbg g t' -> forall fuel, rounds k < fuel ->
  (with_table k dbg fuel t = Val t' <-> length (t_states t') < fuel) /\ (fuel <= length (t_states t') -> with_table k dbg fuel t = Fuel).
Proof.
  intros Nk Ht Hm fuel L. pose proof (tmakes_facts _ _ _ _ _ W Hg _ Ht) as F. pose proof (tf_grammar _ _ _ _ _ _ F) as Eg.
  destruct (makes_tabler _ _ _ _ _ W Hg _ _ Hm) as (tb & Hb & _ & f1 & Em).
  assert (tb = t) as ->.
  { destruct Ht as (n & En), Hb as (n2 & En2). pose proof (rle_val _ _ _ (tabler_rle dbg g n (max n n2) (Nat.le_max_l _ _)) En) as A1. pose proof (rle_val _ _ _ (tabler_rle dbg g n2 (max n n2) (Nat.le_max_r _ _)) En2) as A2. congruence. }
  pose proof (closure_rounds k t Ht) as HN.
  assert ((length (t_states t') < fuel -> with_table k dbg fuel t = Val t') /\ (fuel <= length (t_states t') -> with_table k dbg fuel t = Fuel)) as (Ha & Hb').
  { destruct k; [| |now destruct Nk]; cbn [with_table closure_fn] in *; unfold slr_with_table, clr_with_table in *; rewrite Eg in *; apply bind_val in Em as ([ks sts] & E1 & E2).
    - destruct (closures_turns _ _ _ (slr_closure_ok g) HN _ _ _ E1 fuel L) as (Ha & Hf). apply bind_val in E2 as (acts & E2 & E3).
      injection E3 as <-. cbn [t_states]. split; intros Hl; [rewrite (Ha Hl)|now rewrite (Hf Hl)]. cbn [bind]. now rewrite E2.
    - destruct (closures_turns _ _ _ (clr_closure_ok g _) HN _ _ _ E1 fuel L) as (Ha & Hf). apply bind_val in E2 as (acts & E2 & E3).
      injection E3 as <-. cbn [t_states]. split; intros Hl; [rewrite (Ha Hl)|now rewrite (Hf Hl)]. cbn [bind]. now rewrite E2. }
  split; auto. split; auto. intros E. destruct (le_lt_dec fuel (length (t_states t'))); auto. rewrite Hb' in E by auto. discriminate.
Qed.
End Work.
