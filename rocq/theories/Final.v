(** The remaining property statements, assembled from the development. *)
From Coq Require Import List Bool Arith Lia.
From Verif Require Import BTree Model Base Spec SpecP GrammarP FirstFollow Closure Merged Canon ActTab LR Sound CanonLR Lalr LalrLR Agree Complete Locality Prefix Halt RunFacts Interface Wrap Mono Bogus.
Import ListNotations.

(** ** C03: FOLLOW by derivations *)
Section FollowDeriv.
Context {T : Type} {OT : Ord T}.
Variable rules : rulemap T.
Hypothesis NE : noempty rules.
Variables start eof : T.
Hypothesis Heof : term rules eof.
Notation follows := (follow_rules rules start eof).

Definition adj (w : list T) (X Y : T) : Prop := exists u v, w = u ++ X :: Y :: v.

Lemma adj_app a b X Y : adj (a ++ b) X Y -> adj a X Y \/ adj b X Y \/ exists a' b', a = a' ++ [X] /\ b = Y :: b'.
Proof.
  intros (u & v & E). revert u E. induction a as [|x a IH]; intros u E.
  - right. left. now exists u, v.
  - destruct u as [|y u]; simpl in E.
    + injection E as -> E. destruct a as [|z a].
      * right. right. exists [], v. auto.
      * simpl in E. injection E as -> E. left. now exists [], a.
    + injection E as -> E. destruct (IH _ E) as [(u' & v' & ->)|[H|(a' & b' & -> & ->)]]; auto.
      * left. now exists (y :: u'), v'.
      * right. right. now exists (y :: a'), b'.
Qed.

Lemma adj_l a b X Y : adj a X Y -> adj (a ++ b) X Y.
Proof. intros (u & v & ->). exists u, (v ++ b). now rewrite <- app_assoc. Qed.
Lemma adj_r a b X Y : adj b X Y -> adj (a ++ b) X Y.
Proof. intros (u & v & ->). exists (a ++ u), v. now rewrite <- app_assoc. Qed.
Lemma adj_mid a b X Y : adj (a ++ [X] ++ Y :: b) X Y.
Proof. now exists a, b. Qed.

Definition okform (w : list T) : Prop := forall X Y t, adj w X Y -> nonterm rules X -> first_spec rules Y t -> follows X t.

Lemma first_head B i Y rhs t : prod_at rules B i (Y :: rhs) -> first_spec rules Y t -> first_spec rules B t.
Proof.
  intros Hp [Ht (v & Hv)]. split; auto. exists (v ++ rhs). eapply derives_trans; [eapply derives_prod; eauto|].
  change (Y :: rhs) with ([Y] ++ rhs). change (t :: v ++ rhs) with ((t :: v) ++ rhs). apply derives_app; auto. constructor.
Qed.

Lemma okform_step w w' : okform w -> rewrites rules w w' -> okform w'.
Proof.
  intros Hw H. destruct H as [u B v i rhs Hp]. intros X Y t Ha HX HY.
  apply adj_app in Ha as [Ha|[Ha|(a' & b' & -> & E)]].
  - eapply Hw; eauto. now apply adj_l.
  - apply adj_app in Ha as [(a & b & ->)|[Ha|(a' & b' & -> & ->)]].
    + eapply fr_first; eauto.
    + eapply Hw; eauto. apply adj_r. change (B :: v) with ([B] ++ v). now apply adj_r.
    + eapply fr_last; eauto. eapply Hw; [|eapply prod_nonterm; eauto|exact HY]. exists u, b'. reflexivity.
  - destruct rhs as [|Z rhs]; [exfalso; eapply NE; eauto|]. injection E as -> _.
    eapply Hw; [|exact HX|eapply first_head; eauto]. exists a', v. now rewrite <- app_assoc.
Qed.

Lemma okform_derives w w' : derives rules w w' -> okform w -> okform w'.
Proof. induction 1; auto. intros H'. apply IHderives. eapply okform_step; eauto. Qed.

Lemma deriv_follow A t : nonterm rules A -> follow_deriv rules start eof A t -> follows A t.
Proof.
  intros HA [Ht (u & v & Hd)]. apply okform_derives in Hd.
  - apply (Hd A t t); auto; [now exists u, v|]. split; auto. exists []. constructor.
  - intros X Y t' (a & b & E) HX HY. destruct a as [|x a]; [|destruct a as [|y [|z a]]; discriminate].
    injection E as <- <- <-. apply first_term in HY; auto. subst t'. constructor.
Qed.

Lemma follow_deriv_ok A t : reachable rules start -> follows A t -> follow_deriv rules start eof A t.
Proof.
  intros HR. induction 1 as [|B i u A Y v t Hp HA [Ht (w & Hw)]|B i u A t Hp HA _ [Ht (x & y & Hd)]].
  - split; auto. exists [], []. constructor.
  - split; auto. destruct (HR B (prod_nonterm _ _ _ _ Hp)) as (x & y & Hd). exists (x ++ u), (w ++ v ++ y ++ [eof]).
    change [start; eof] with ([start] ++ [eof]). eapply derives_trans; [apply derives_app; [exact Hd|constructor]|].
    eapply derives_trans.
    + rewrite <- app_assoc. simpl. apply (derives_ctx rules x (y ++ [eof]) [B] (u ++ A :: Y :: v)). eapply derives_prod; eauto.
    + rewrite <- !app_assoc. simpl. apply derives_app; [constructor|]. apply derives_app; [constructor|].
      apply derives_cons. change (Y :: v ++ y ++ [eof]) with ([Y] ++ v ++ y ++ [eof]).
      change (t :: w ++ v ++ y ++ [eof]) with ((t :: w) ++ v ++ y ++ [eof]). apply derives_app; auto. constructor.
  - split; auto. exists (x ++ u), y. eapply derives_trans; [exact Hd|].
    pose proof (derives_ctx rules x (t :: y) [B] (u ++ [A]) (derives_prod _ _ _ _ Hp)) as H. rewrite <- !app_assoc in *. simpl in *. exact H.
Qed.
End FollowDeriv.

(** ** C31 *)
Section Transitive.
Context {A : Type} {OA : Ord A}.
Variable f : A -> A.

Lemma transitive_iter fuel : forall seed v, transitive fuel seed (fun x => Val (f x)) = Val v ->
  f v = v /\ exists n, v = Nat.iter n f seed /\ forall m, m < n -> Nat.iter (S m) f seed <> Nat.iter m f seed.
Proof.
  induction fuel as [|fuel IH]; intros seed v E; [discriminate|]. cbn [transitive bind] in E.
  destruct (eqb_spec (f seed) seed) as [Es|N].
  - injection E as <-. split; auto. exists 0. split; auto. lia.
  - apply IH in E as (H1 & n & -> & H2). split; auto.
    assert (S1 : forall n x, Nat.iter n f (f x) = Nat.iter (S n) f x).
    { induction n0 as [|n0 IHn]; intros x; auto. simpl. rewrite IHn. reflexivity. }
    exists (S n). split; [apply S1|]. intros [|m] L; [exact N|]. specialize (H2 m ltac:(lia)). rewrite !S1 in H2. exact H2.
Qed.

Lemma transitive_returns seed n : f (Nat.iter n f seed) = Nat.iter n f seed -> exists fuel v, transitive fuel seed (fun x => Val (f x)) = Val v.
Proof.
  revert seed. induction n as [|n IH]; intros seed E.
  - exists 1, seed. cbn [transitive bind]. simpl in E. now rewrite E, eqb_refl.
  - assert (S1 : forall n x, Nat.iter n f (f x) = Nat.iter (S n) f x).
    { clear. induction n as [|n IHn]; intros x; auto. simpl. rewrite IHn. reflexivity. }
    destruct (IH (f seed)) as (fuel & v & Ev); [now rewrite S1|]. exists (S fuel). cbn [transitive bind].
    destruct (eqb (f seed) seed); eauto.
Qed.
End Transitive.

Section Final.
Context {T : Type} {OT : Ord T}.
Variables (dbg : bool) (start eof : T) (rules : rulemap T) (g : grammar T).
Hypothesis W : wf_rules rules.

(** ** C01 *)
Lemma grammar_new_ok : nonterm rules start ->
  ((exists g, grammar_new dbg start rules eof = Val g) <->
   (exists rhs, prod_at rules start 0 rhs) /\ (dbg = true -> single_start rules start)).
Proof.
  intros (r & Hr). split.
  - intros (g' & E). destruct (grammar_new_inv _ _ _ _ _ E) as (_ & r' & p0 & ps & Hr' & Hp & _ & Hs). split.
    + exists (fst p0), r', (snd p0). rewrite Hp. destruct p0. auto.
    + intros Hd. eapply debug_single; eauto.
  - intros [(rhs & r' & k & Hr' & Hn) Hs]. rewrite Hr in Hr'. injection Hr' as <-.
    destruct (r_prods r) as [|p0 ps] eqn:Ep; [discriminate|]. eapply grammar_new_total; eauto.
    intros Hd. destruct ps as [|p1 ps]; auto. exfalso.
    enough (1 = 0) by discriminate. apply (Hs Hd 1 (fst p1)). exists r, (snd p1). rewrite Ep. split; auto. now destruct p1.
Qed.

Lemma grammar_new_nostart : term rules start -> grammar_new dbg start rules eof = Panic P_index.
Proof. intros H. unfold grammar_new. destruct (bm_get start rules) as [r|] eqn:E; [|reflexivity]. exfalso. apply H. now exists r. Qed.

Hypothesis Hg : grammar_new dbg start rules eof = Val g.

Lemma grammar_new_parts :
  g_rules g = rules /\
  (forall x, In x (g_terminals g) <-> x = eof \/ (term rules x /\ exists A i rhs, prod_at rules A i rhs /\ In x rhs)) /\
  (forall x, In x (g_symbols g) <-> nonterm rules x \/ In x (g_terminals g)) /\
  sorted (g_terminals g) /\ sorted (g_symbols g) /\
  (forall x, is_terminal g x = true <-> term rules x) /\
  exists rhs, prod_at rules start 0 rhs /\ g_basis g = mkPos start (rhs, 0) 0 [eof].
Proof.
  pose proof (Wr _ _ _ _ _ Hg) as Er. split; auto. split; [intros; eapply grammar_new_terminals; eauto|].
  split; [intros; eapply grammar_new_symbols; eauto|]. destruct (grammar_new_sorted _ _ _ _ _ Hg). split; auto. split; auto.
  split; [rewrite <- Er; apply is_terminal_term|].
  destruct (Wp0 _ _ _ _ _ W Hg) as ([rhs i] & Hb & Hp & E). cbn [fst snd] in *. subst i. eauto.
Qed.

(** ** method-independent view of the tables *)
Definition look_fn (k : method) (t : tabler T) : position T -> res (bset T) :=
  match k with SLR => slr_look (t_follow t) | _ => clr_look end.

Lemma makes_lr0 k t p0 : makes k dbg g t -> g_basis g = mkPos start p0 0 [eof] ->
  exists sfk, lr0 g start eof p0 (t_states t) sfk (look_fn k t) (t_actions t) /\
    forall q row pos X, nth_error (t_states t) q = Some row -> In pos row -> ptop pos = Some X ->
      exists n row', sfk (sym_filter row X) = Some n /\ nth_error (t_states t) n = Some row' /\
        forall x, In x (sym_filter row X) -> exists y, In y row' /\ no_look y = no_look x /\ (k <> LALR -> y = x).
Proof.
  intros (t0 & _ & F & fuel & E)%(makes_tabler _ _ _ _ _ W Hg) Hp0. destruct k.
  - exists (sfk_plain (t_kernels t)). destruct (slr_inv _ _ _ _ _ W Hg _ F _ _ E) as (_ & _ & Hf & HC & _). cbn [look_fn]. rewrite Hf. split.
    + eapply slr_lr0; eauto.
    + intros q row pos X Hq Hp Ht. destruct (canon_resolve _ _ _ _ _ W Hg _ _ _ HC _ _ _ _ Hq Hp Ht) as (n & row' & H1 & H2 & H3).
      exists n, row'. split; auto. split; auto. intros x Hx. exists x. auto.
  - exists (sfk_plain (t_kernels t)). destruct (clr_inv _ _ _ _ _ W Hg _ F _ _ E) as (_ & _ & _ & HC & _). cbn [look_fn]. split.
    + eapply clr_lr0; eauto.
    + intros q row pos X Hq Hp Ht. destruct (canon_resolve _ _ _ _ _ W Hg _ _ _ HC _ _ _ _ Hq Hp Ht) as (n & row' & H1 & H2 & H3).
      exists n, row'. split; auto. split; auto. intros x Hx. exists x. auto.
  - destruct E as (p & E). exists (sfk_lalr p). destruct (lalr_inv _ _ _ _ _ W Hg _ F _ _ _ E) as (_ & _ & _ & Hst & _). cbn [look_fn]. split.
    + rewrite Hst. eapply lalr_lr0; eauto.
    + intros q row pos X Hq Hp Ht. rewrite Hst in *. destruct (lalr_resolve _ _ _ _ _ W Hg _ F _ _ _ E _ _ _ _ Hq Hp Ht) as (n & row' & H1 & H2 & H3).
      exists n, row'. split; auto. split; auto. intros x Hx. destruct (H3 _ Hx) as (y & Hy & Ey). exists y. split; auto. split; auto. congruence.
Qed.

Lemma ptop_at_dot (pos : position T) : ptop pos = at_dot pos.
Proof. unfold ptop, peek, at_dot. now rewrite Nat.add_0_r. Qed.

Lemma allows_look k t pos x : allows k t pos x -> exists look, look_fn k t pos = Val look /\ In x look.
Proof.
  destruct k; cbn [allows look_fn]; [|exists (p_look pos); auto..].
  intros (s & Es & Hx). exists s. split; auto. unfold slr_look. now rewrite Es.
Qed.

Lemma look_allows k t pos x look : look_fn k t pos = Val look -> In x look -> allows k t pos x.
Proof.
  destruct k; cbn [allows look_fn]; [|intros [= <-]; auto..].
  unfold slr_look. intros H Hx. apply expect_val in H. eauto.
Qed.

(** ** C26, C40 *)
Lemma table_exact k t : makes k dbg g t -> exists go, transitions k t go /\
  length (t_actions t) = length (t_states t) /\
  forall q row, nth_error (t_actions t) q = Some row ->
    msorted row /\
    (forall x b, (exists a, bm_get x row = Some a /\ inside b a) <-> decides k t go q x b) /\
    (forall x, (exists a b, bm_get x row = Some (Conflict a b)) <-> exists a b, decides k t go q x a /\ decides k t go q x b /\ a <> b).
Proof.
  intros Hm. destruct (Wp0 _ _ _ _ _ W Hg) as (p0 & Hp0 & Hp & Hz). destruct (makes_lr0 _ _ _ Hm Hp0) as (sfk & L & Hres).
  pose proof (makes_grammar _ _ _ _ _ W Hg _ _ Hm) as Eg.
  set (go := fun q x => match nth_error (t_states t) q with Some row => match sfk (sym_filter row x) with Some n => n | None => 0 end | None => 0 end).
  assert (Hgo : forall q row pos x, nth_error (t_states t) q = Some row -> In pos row -> at_dot pos = Some x ->
     sfk (sym_filter row x) = Some (go q x)).
  { intros q row pos x Hq Hin Hd. rewrite <- ptop_at_dot in Hd. destruct (Hres _ _ _ _ Hq Hin Hd) as (n & row' & H1 & _).
    unfold go. now rewrite Hq, H1. }
  exists go. split; [|split].
  - intros q row x Hq (pos0 & Hin0 & Hd0). pose proof (Hgo _ _ _ _ Hq Hin0 Hd0) as Hs0.
    pose proof Hd0 as Hd0'. rewrite <- ptop_at_dot in Hd0'. destruct (Hres _ _ _ _ Hq Hin0 Hd0') as (n & row' & H1 & H2 & H3).
    rewrite Hs0 in H1. injection H1 as <-. exists row'. split; auto. split.
    + intros pos Hin Hd. destruct (H3 (adv pos)) as (y & Hy & Ey & El).
      { apply sym_filter_in. exists pos. rewrite ptop_at_dot. auto. }
      exists y. split; auto. unfold no_look in Ey. injection Ey as E1 E2 E3. split; auto. split; auto. split; auto.
      intros Hk. rewrite (El Hk). reflexivity.
    + intros [A pr d l] Hin Hpos. destruct d as [|d]; [simpl in Hpos; lia|].
      destruct (l_back _ _ _ _ _ _ _ _ L q x (go q x) A pr d) as [(r1 & l1 & Hr1 & Hi1) Hn].
      * exists row, pos0. rewrite ptop_at_dot. auto.
      * exists row', l. auto.
      * rewrite Hq in Hr1. injection Hr1 as <-. exists (mkPos A pr d l1). auto.
  - exact (proj1 (proc_actions_spec _ _ _ _ _ (l_acts _ _ _ _ _ _ _ _ L))).
  - intros q m Hq. apply (row_spec' _ _ _ _ _ _ _ _ L) in Hq as (row & Hr & Hok).
    assert (Hdec : forall x b, (exists pos, In pos row /\ dec g (look_fn k t) sfk start row pos x b) <-> decides k t go q x b).
    { intros x b. pose proof Hp0 as Hp0'. rewrite <- Eg in Hp0'. split.
      - intros (pos & Hin & Hd). inversion Hd; subst.
        + rewrite ptop_at_dot in H. pose proof (Hgo _ _ _ _ Hr Hin H) as X. rewrite H1 in X. injection X as ->. eapply decides_shift; eauto.
        + rewrite ptop_at_dot in H. pose proof (Hgo _ _ _ _ Hr Hin H) as X. rewrite H1 in X. injection X as ->. eapply decides_goto; eauto.
        + rewrite ptop_at_dot in H. eapply decides_reduce; eauto.
          * eapply look_allows; eauto.
          * now rewrite Hp0'.
        + rewrite ptop_at_dot in H. eapply decides_accept; eauto.
          * eapply look_allows; eauto.
          * now rewrite Hp0'.
      - intros Hd. inversion Hd; subst; rewrite Hr in H; injection H as <-; exists pos; split; auto.
        + apply dec_shift; [now rewrite ptop_at_dot|assumption|eapply Hgo; eauto].
        + apply dec_goto; [now rewrite ptop_at_dot|assumption|eapply Hgo; eauto].
        + destruct (allows_look k t pos x H2) as (look & El & Hx). eapply dec_reduce; eauto; [now rewrite ptop_at_dot|now rewrite Hp0' in H3].
        + destruct (allows_look k t pos x H2) as (look & El & Hx). eapply dec_acc; eauto; [now rewrite ptop_at_dot|now rewrite Hp0' in H3]. }
    split; [apply Hok|]. split.
    + intros x b. rewrite <- Hdec. rewrite <- (proj1 (proj2 Hok) x b). split; intros (a & Ha & Hi); exists a; split; auto; now apply inside_leaves.
    + intros x. rewrite (row_ok_conflict _ _ _ _ _ _ _ Hok). split.
      * intros (p & q' & a & b & H1 & H2 & H3 & H4 & N). exists a, b. split; [apply Hdec; eauto|]. split; [apply Hdec; eauto|auto].
      * intros (a & b & H1 & H2 & N). apply Hdec in H1 as (p & H1 & H3). apply Hdec in H2 as (q' & H2 & H4). exists p, q', a, b. auto.
Qed.
End Final.

Lemma travel_eof {T} {OT : Ord T} {M} fuel : forall (d : dfa T M) s d' o, travel fuel d s = Val (d', o) -> d_eof d' = d_eof d.
Proof.
  induction fuel as [|n IH]; intros d s d' o; cbn [travel]; [discriminate|].
  destruct (nth_error (d_table d) (d_top d)) as [row|]; [|congruence].
  destruct (bm_get s row) as [[to|to|A pr| |a b]|]; unfold dfa_shift, dfa_goto, dfa_accept.
  - destruct (d_buffer d); intros [= <- <-]; reflexivity.
  - intros [= <- <-]; reflexivity.
  - intros E. apply bind_val in E as (d1 & E1 & E2). apply IH in E2. rewrite E2. unfold dfa_pop in E1.
    destruct (_ <? _); [discriminate|]. apply bind_val in E1 as (? & _ & E1). apply bind_val in E1 as (? & _ & E1).
    apply bind_val in E1 as (? & _ & E1). injection E1 as <-. reflexivity.
  - intros [= <- <-]; reflexivity.
  - intros [= <- <-]; reflexivity.
  - intros [= <- <-]; reflexivity.
Qed.

Lemma dfa_start_eof {T} {OT : Ord T} {M} fuel : forall (d : dfa T M) d' o, dfa_start fuel d = Val (d', o) -> d_eof d' = d_eof d.
Proof.
  induction fuel as [|n IH]; intros d d' o; cbn [dfa_start]; [discriminate|].
  destruct (d_finished d); [congruence|]. intros E. apply bind_val in E as ([d1 o1] & E1 & E2). apply travel_eof in E1.
  destruct o1; [apply IH in E2; congruence|]. injection E2 as <- <-. auto.
Qed.

(** ** totality and closures *)
Section Final2.
Context {T : Type} {OT : Ord T}.
Variables (dbg : bool) (start eof : T) (rules : rulemap T) (g : grammar T).
Hypothesis W : wf_rules rules.
Hypothesis Hg : grammar_new dbg start rules eof = Val g.

Lemma tmakes_facts t : tabler_makes dbg g t -> tabler_facts dbg start eof rules g t.
Proof. intros (fuel & E). eapply tabler_new_facts; eauto. Qed.

Lemma tin_iff (tbl : table T) A x : tin tbl A x <-> exists s, bm_get A tbl = Some s /\ In x s.
Proof. reflexivity. Qed.

Lemma makes_unique k t1 t2 : makes k dbg g t1 -> makes k dbg g t2 -> t1 = t2.
Proof.
  destruct k; cbn [makes].
  - intros (n & E1) (m & E2). exact (rle_fun (fun n => slr_new dbg n g) _ _ _ _ (fun a b L => slr_new_rle dbg a b g L) E1 E2).
  - intros (n & E1) (m & E2). exact (rle_fun (fun n => clr_new dbg n g) _ _ _ _ (fun a b L => clr_new_rle dbg a b g L) E1 E2).
  - intros (n & p & E1) (m & p' & E2).
    pose proof (rle_fun (fun n => lalr_new dbg n g) _ _ _ _ (fun a b L => lalr_new_rle dbg a b g L) E1 E2) as [= ]. auto.
Qed.

Lemma makes_debug k t : makes k true g t -> makes k false g t.
Proof.
  destruct k; cbn [makes].
  - intros (n & E). exists n. now apply slr_new_vle.
  - intros (n & E). exists n. now apply clr_new_vle.
  - intros (n & p & E). exists n, p. now apply lalr_new_vle.
Qed.

Lemma with_table_total k t : tabler_makes dbg g t -> exists N t', (forall fuel, N <= fuel -> with_table k dbg fuel t = Val t') /\ makes k dbg g t'.
Proof.
  intros Ht. pose proof (tmakes_facts _ Ht) as F. destruct Ht as (n & En). destruct k; cbn [with_table makes].
  - destruct (slr_total _ _ _ _ _ W Hg _ F) as (N & HN). exists N. destruct (HN N (le_n _)) as (t' & E). exists t'. split.
    + intros fuel L. eapply rle_val; [apply (slr_with_rle dbg N fuel t L)|exact E].
    + exists (max n N). unfold slr_new. assert (tabler_new dbg (max n N) g = Val t) as -> by (eapply rle_val; [apply (tabler_rle dbg g n (max n N)); lia|exact En]).
      cbn [bind]. eapply rle_val; [apply (slr_with_rle dbg N (max n N) t); lia|exact E].
  - destruct (clr_total _ _ _ _ _ W Hg _ F) as (N & HN). exists N. destruct (HN N (le_n _)) as (t' & E). exists t'. split.
    + intros fuel L. eapply rle_val; [apply (clr_with_rle dbg N fuel t L)|exact E].
    + exists (max n N). unfold clr_new. assert (tabler_new dbg (max n N) g = Val t) as -> by (eapply rle_val; [apply (tabler_rle dbg g n (max n N)); lia|exact En]).
      cbn [bind]. eapply rle_val; [apply (clr_with_rle dbg N (max n N) t); lia|exact E].
  - destruct (lalr_total _ _ _ _ _ W Hg _ F) as (N & HN). exists N. destruct (HN N (le_n _)) as ([t' p] & E). exists t'. split.
    + intros fuel L. assert (lalr_with_table dbg fuel t = Val (t', p)) as ->; [|reflexivity]. eapply rle_val; [apply (lalr_with_rle dbg N fuel t L)|exact E].
    + exists (max n N), p. unfold lalr_new. assert (tabler_new dbg (max n N) g = Val t) as -> by (eapply rle_val; [apply (tabler_rle dbg g n (max n N)); lia|exact En]).
      cbn [bind]. eapply rle_val; [apply (lalr_with_rle dbg N (max n N) t); lia|exact E].
Qed.

(** ** C06 *)
Definition lkf (k : method) (t : tabler T) : position T -> bset T := match k with SLR => slr_lk | _ => clr_lk (t_first t) end.

Lemma closure_look_lkf k t p l : tabler_facts dbg start eof rules g t -> (closure_look k t p l <-> l = lkf k t p).
Proof.
  intros F. pose proof (tf_grammar _ _ _ _ _ _ F) as Eg. pose proof (Wr _ _ _ _ _ Hg) as Er.
  assert (Gen : forall X l, (sorted l /\ forall x, In x l <-> (term (g_rules (t_grammar t)) X /\ x = X) \/ exists s, bm_get X (t_first t) = Some s /\ In x s) <->
    l = first_of (t_first t) [X]).
  { intros X l'. rewrite Eg, Er. 
    assert (forall x, In x (first_of (t_first t) [X]) <-> (term rules X /\ x = X) \/ exists s, bm_get X (t_first t) = Some s /\ In x s) as E.
    { intros x. rewrite first_of_one, tin_iff. split; (intros [[H ->]|H]; [left; split; auto|now right]).
      - intros HX. apply (tf_first_keys _ _ _ _ _ _ F) in HX as (s & Hs). congruence.
      - destruct (bm_get X (t_first t)) as [s|] eqn:Es; auto. exfalso. apply H. apply (tf_first_keys _ _ _ _ _ _ F). eauto. }
    split.
    - intros [Hs H]. apply sorted_ext; auto using first_of_one_sorted. intros x. rewrite H, E. reflexivity.
    - intros ->. split; [apply first_of_one_sorted|auto]. }
  destruct k; cbn [closure_look lkf]; [reflexivity|..];
    unfold clr_lk, pnext, peek; rewrite Nat.add_1_r; destruct (nth_error (fst (p_seq p)) (S (p_point p))); auto; reflexivity.
Qed.

Lemma closure_exact k t : tabler_makes dbg g t -> forall seed, sorted seed -> (forall p, In p seed -> valid_pos g p) ->
  exists N c, (forall fuel, N <= fuel -> prop_closure (closure_fn k t) fuel seed = Val c) /\
    sorted c /\ (forall p, In p c <-> closure_of k t (fun p => In p seed) p) /\
    forall fuel, 0 < fuel -> prop_closure (closure_fn k t) fuel c = Val c.
Proof.
  intros Ht seed Hs Hv. pose proof (tmakes_facts _ Ht) as F. pose proof (tf_grammar _ _ _ _ _ _ F) as Eg. pose proof (Wr _ _ _ _ _ Hg) as Er.
  assert (Hok : closure_ok g (lkf k t) (closure_fn k t)).
  { unfold closure_fn. rewrite Eg. destruct k; cbn [lkf]; auto using slr_closure_ok, clr_closure_ok. }
  assert (Hlk : lk_ok g (lkf k t)).
  { destruct k; cbn [lkf]; [apply slr_lk_ok|eapply clr_lk_ok; eauto..]. }
  assert (Wg : wf_rules (g_rules g)) by now rewrite Er.
  destruct (grammar_new_sorted _ _ _ _ _ Hg) as [Hss _].
  assert (Htot : forall fuel, length (universe g) < fuel -> exists c, prop_closure (closure_fn k t) fuel seed = Val c).
  { apply (prop_closure_total g (universe g) (vpos g) (lkf k t) _ Hok); auto.
    - intros p Hp. apply vpos_universe; auto.
    - intros p q Hp Hq. eapply yields_vpos; eauto.
    - intros p Hp. destruct (Hv p Hp) as (H1 & H2 & H3 & H4). split; [split; auto|split; auto]. }
  destruct (Htot (S (length (universe g)))) as (c & Ec); [lia|].
  destruct (prop_closure_spec g _ _ _ _ _ Hok Ec) as (Sc & Hc & Hfix).
  exists (S (length (universe g))), c. split; [|split; [auto|split]].
  - intros fuel L. destruct (Htot fuel) as (c' & Ec'); [lia|]. rewrite Ec'. f_equal.
    destruct (prop_closure_spec g _ _ _ _ _ Hok Ec') as (Sc' & Hc' & _). apply sorted_ext; auto. intros p. rewrite Hc, Hc'. reflexivity.
  - intros p. rewrite Hc. split.
    + induction 1 as [p Hp|p q _ IH (B & r & pr & H1 & H2 & H3 & ->)]; [now constructor|].
      rewrite ptop_at_dot in H1. eapply co_step; eauto.
      * rewrite Eg. eapply wf_prod_in; eauto.
      * apply closure_look_lkf; auto.
    + induction 1 as [p Hp|p B pr l _ IH H1 H2 H3]; [now constructor|].
      apply closure_look_lkf in H3 as ->; auto. apply clo_yield with p; auto. rewrite <- ptop_at_dot in H1.
      rewrite Eg in H2. apply wf_prod_at in H2 as (r & Hr & Hn); auto. exists B, r, pr. split; auto. split; auto. split; auto.
      apply nth_error_In in Hn. now destruct pr.
  - now apply prop_closure_idem.
Qed.

(** ** C27, C32 *)
Lemma makes_first k t' : makes k dbg g t' -> exists t, tabler_makes dbg g t /\ t_first t' = t_first t /\ t_follow t' = t_follow t /\ t_grammar t' = g.
Proof.
  intros (t & Ht & F & fuel & E)%(makes_tabler _ _ _ _ _ W Hg). exists t. split; auto. destruct k.
  - destruct (slr_inv _ _ _ _ _ W Hg _ F _ _ E) as (? & ? & ? & _). auto.
  - destruct (clr_inv _ _ _ _ _ W Hg _ F _ _ E) as (? & ? & ? & _). auto.
  - destruct E as (p & E). destruct (lalr_inv _ _ _ _ _ W Hg _ F _ _ _ E) as (? & ? & ? & _). auto.
Qed.

Lemma tmakes_unique t1 t2 : tabler_makes dbg g t1 -> tabler_makes dbg g t2 -> t1 = t2.
Proof.
  intros (n & E1) (m & E2). exact (rle_fun (fun n => tabler_new dbg n g) _ _ _ _ (fun a b L => tabler_rle dbg g a b L) E1 E2).
Qed.

Lemma makes_with k t t' : tabler_makes dbg g t -> makes k dbg g t' -> exists fuel, match k with
  | SLR => slr_with_table dbg fuel t = Val t'
  | CLR => clr_with_table dbg fuel t = Val t'
  | LALR => exists p, lalr_with_table dbg fuel t = Val (t', p)
  end.
Proof.
  intros Ht (t0 & Ht0 & _ & H)%(makes_tabler _ _ _ _ _ W Hg). now rewrite (tmakes_unique _ _ Ht Ht0).
Qed.

Lemma tmakes_terminals t : tabler_makes dbg g t -> dbg = true \/ only_terminals t ->
  (forall A x, tin (t_first t) A x -> term rules x) /\ (forall A x, tin (t_follow t) A x -> term rules x).
Proof.
  intros Ht H. pose proof (tmakes_facts _ Ht) as F. pose proof (tf_grammar _ _ _ _ _ _ F) as Eg. pose proof (Wr _ _ _ _ _ Hg) as Er.
  destruct H as [Hd|Ho].
  - split; intros; [eapply tf_first_debug|eapply tf_follow_debug]; eauto.
  - unfold only_terminals in Ho. rewrite Eg, Er in Ho. split; intros A x Hx; apply tin_iff in Hx as (s & Es & Hx); eauto.
Qed.

Lemma makes_terminals k t' : makes k dbg g t' -> dbg = true \/ only_terminals t' -> exists t, tabler_makes dbg g t /\ t_first t' = t_first t /\ t_follow t' = t_follow t /\
  (forall A x, tin (t_first t) A x -> term rules x) /\ (forall A x, tin (t_follow t) A x -> term rules x).
Proof.
  intros Hm H. destruct (makes_first _ _ Hm) as (t & Ht & E1 & E2 & E3). exists t. split; auto. split; auto. split; auto.
  apply tmakes_terminals; auto. destruct H as [H|H]; auto. right. unfold only_terminals in *.
  rewrite E1, E2, E3 in H. now rewrite (tf_grammar _ _ _ _ _ _ (tmakes_facts _ Ht)).
Qed.

Lemma slr_clean k ts t' : term rules eof -> makes SLR dbg g ts -> dbg = true \/ only_terminals ts ->
  conflicts (t_actions ts) = [] -> makes k dbg g t' -> conflicts (t_actions t') = [].
Proof.
  intros He Hs Ho Hc Hm. destruct (makes_terminals _ _ Hs Ho) as (t & Ht & _ & _ & Hf & _). pose proof (tmakes_facts _ Ht) as F.
  destruct (makes_with _ _ _ Ht Hs) as (fs & Es). destruct (makes_with _ _ _ Ht Hm) as (fm & Em). destruct k.
  - now rewrite (makes_unique _ _ _ Hm Hs).
  - exact (slr_clean_clr _ _ _ _ _ W Hg _ F He Hf _ _ Es Hc _ _ Em).
  - destruct Em as (p & Em). exact (slr_clean_lalr _ _ _ _ _ W Hg _ F He Hf _ _ Es Hc _ _ _ Em).
Qed.

(** acceptance with value [m] by any method implies acceptance with value [m] by a clean Slr or Clr table *)
Lemma evals_parses {M} (maps : reductmap T M) k t input rhs its it : term rules eof -> start_fresh rules start ->
  makes k dbg g t -> k <> LALR \/ carries t -> conflicts (t_actions t) = [] ->
  prod_at rules start 0 rhs -> evals_seq rules maps rhs input (its ++ [it]) -> parses t input maps (POk (tk_item it)).
Proof.
  intros He Hf Hm Hk Hc Hrhs Hev. pose proof (Wr _ _ _ _ _ Hg) as Er.
  assert (term (g_rules g) eof) as He' by now rewrite Er.
  assert (start_fresh (g_rules g) start) as Hf' by now rewrite Er.
  destruct (Wp0 _ _ _ _ _ W Hg) as (p0 & Hp0 & Hpr & _).
  assert (rhs = fst p0) as ->. { destruct Hrhs as (r & i & E1 & E2), Hpr as (r' & i' & E3 & E4). rewrite E1 in E3. injection E3 as <-. congruence. }
  destruct (makes_made _ _ _ _ _ W Hg _ _ _ Hm Hp0) as (sfk & lookf & X).
  pose proof (m_lr0 _ _ _ _ _ _ _ _ _ _ X) as L. pose proof (m_lr1c _ _ _ _ _ _ _ _ _ _ X Hk He) as C.
  rewrite <- Er in Hev. destruct (run_complete _ _ _ _ _ _ _ _ L C He' maps _ _ Hf' Hev) as [(d' & R & Hi)|(d' & a & b & R)].
  - apply (parses_runs _ _ _ _ _ W Hg maps _ _ Hm). exists d', Ok. split; auto. rewrite Hi, rev_app_distr. reflexivity.
  - exfalso. eapply (clean_no_conflict_run _ _ _ _ _ W Hg maps _ _ Hm He); eauto.
    + apply (proj2 (evals_derives _ _)) in Hev. rewrite Er in Hev. apply Hev.
    + apply (parses_runs _ _ _ _ _ W Hg maps _ _ Hm). eauto.
Qed.

Lemma clean_value {M} (maps : reductmap T M) k k' t t' input m : term rules eof -> start_fresh rules start -> 
  makes k dbg g t -> makes k' dbg g t' -> k' <> LALR \/ carries t' -> conflicts (t_actions t') = [] ->
  parses t input maps (POk m) -> parses t' input maps (POk m).
Proof.
  intros He Hf Hm Hm' Hk Hc Hp.
  destruct (parses_evals _ _ _ _ _ W Hg maps _ _ Hm He _ _ Hf Hp) as (rhs & its & it & Hrhs & Hev & ->). eapply evals_parses; eauto.
Qed.

Lemma slr_clr_agree {M} (maps : reductmap T M) ts tc input m : term rules eof -> start_fresh rules start ->
  makes SLR dbg g ts -> makes CLR dbg g tc -> dbg = true \/ only_terminals ts -> conflicts (t_actions ts) = [] ->
  (parses ts input maps (POk m) <-> parses tc input maps (POk m)).
Proof.
  intros He Hf Hs Hm Ho Hc. pose proof (slr_clean _ _ _ He Hs Ho Hc Hm) as Hcc.
  split; intros H.
  - apply (clean_value maps SLR CLR ts tc); auto. left. discriminate.
  - apply (clean_value maps CLR SLR tc ts); auto. left. discriminate.
Qed.

(** ** C21 with arbitrary tokens *)
Lemma makes_lookterm k t' p0 : term rules eof -> makes k dbg g t' -> dbg = true \/ only_terminals t' -> g_basis g = mkPos start p0 0 [eof] ->
  exists sfk lookf, lr0 g start eof p0 (t_states t') sfk lookf (t_actions t') /\
    forall q A pr x, hasl (t_states t') lookf q A pr (length (fst pr)) x -> term (g_rules g) x.
Proof.
  intros He Hm Ho Hp0. destruct (makes_terminals _ _ Hm Ho) as (t & Ht & _ & _ & Hf & Hw). pose proof (tmakes_facts _ Ht) as F.
  destruct (makes_with _ _ _ Ht Hm) as (fm & Em). rewrite (Wr _ _ _ _ _ Hg). destruct k.
  - exists (sfk_plain (t_kernels t')), (slr_look (t_follow t)). split; [eapply slr_lr0; eauto|].
    intros q A pr x Hh. apply slr_hasl in Hh as [_ Hx]. eauto.
  - exists (sfk_plain (t_kernels t')), clr_look. split; [eapply clr_lr0; eauto|].
    intros q A pr x Hh. eapply (clr_look_Q _ _ _ _ _ W Hg _ F) with (Q := fun _ x => term rules x); eauto. eapply Qterm; eauto.
  - destruct Em as (p & Em). destruct (lalr_inv _ _ _ _ _ W Hg _ F _ _ _ Em) as (_ & _ & _ & Hst & _). rewrite Hst.
    exists (sfk_lalr p), clr_look. split; [eapply lalr_lr0; eauto|].
    intros q A pr x Hh. eapply (lalr_look _ _ _ _ _ W Hg _ F _ _ _ Em) with (Q := fun _ x => term rules x); eauto. eapply Qterm; eauto.
Qed.

Section Bogus.
Context {M : Type}.
Variable maps : reductmap T M.
Variables (k : method) (t' : tabler T).
Hypothesis Heof : term rules eof.
Hypothesis Hcov : covers rules maps.
Hypothesis Hm : makes k dbg g t'.

Lemma never_panics_any fuel input p : dbg = true \/ only_terminals t' \/ Forall (term rules) (map tk_ty input) -> parser_parse fuel t' input maps <> Panic p.
Proof.
  intros H. rewrite <- or_assoc in H. destruct H as [Ho|Ht]; [|eapply never_panics; eauto].
  destruct (Wp0 _ _ _ _ _ W Hg) as (p0 & Hp0 & _). destruct (makes_lookterm _ _ _ Heof Hm Ho Hp0) as (sfk & lookf & L & Ht).
  unfold parser_parse. rewrite (makes_dfa _ _ _ _ _ W Hg maps _ _ Hm). cbn [bind].
  pose proof (Wr _ _ _ _ _ Hg) as Er. assert (term (g_rules g) eof) as He' by now rewrite Er.
  assert (covers (g_rules g) maps) as Hcov' by now rewrite Er.
  pose proof (inv_no_panic _ _ _ _ _ _ _ _ L He' Ht maps Hcov' fuel _ p (inv_new _ _ _ _ _ _ _ _ L He' maps input)) as NP.
  destruct (dfa_start fuel (dfa_new input (t_actions t') maps eof)) as [[d' [|e]]| |] eqn:E; cbn [bind]; try congruence.
  destruct (d_items d'); discriminate.
Qed.

Lemma benign_any input rest e : dbg = true \/ only_terminals t' \/ Forall (term rules) (map tk_ty input) -> fails t' input maps rest e ->
  match e with
  | MissingPreviousState | StateNotSpecified => False
  | UnexpectedEof => rest = [] /\ exists A i rhs, prod_at rules A i rhs /\ In eof rhs
  | UnexpectedToken t es => (t = match rest with [] => eof | tok :: _ => tk_ty tok end) /\ ~ In t es /\ sorted es
  | IncompleteExec => rest <> []
  | ConflictErr a b => In (Conflict a b) (conflicts (t_actions t'))
  end.
Proof.
  clear Hcov.
  intros H Hf. rewrite <- or_assoc in H. destruct H as [Ho|Ht]; [|eapply benign_run; eauto].
  destruct (Wp0 _ _ _ _ _ W Hg) as (p0 & Hp0 & _). destruct (makes_lookterm _ _ _ Heof Hm Ho Hp0) as (sfk & lookf & L & Ht).
  pose proof (Wr _ _ _ _ _ Hg) as Er. assert (term (g_rules g) eof) as He' by now rewrite Er.
  apply (fails_runs _ _ _ _ _ W Hg maps _ _ Hm) in Hf as (d' & R & Hb).
  pose proof (inv_fine _ _ _ _ _ _ _ _ L He' Ht maps _ _ R (inv_new _ _ _ _ _ _ _ _ L He' maps input)) as B. cbn [fst snd fine] in B.
  assert (d_eof d' = eof) as Ee.
  { destruct R as (f & R). eapply dfa_start_eof in R. exact R. }
  destruct e; auto.
  - unfold lookahead in B. rewrite Hb, Ee in B. exact B.
  - rewrite Hb, Er in B. exact B.
  - destruct B as (q & x & B). eapply entry_conflicts; eauto.
  - now rewrite Hb in B.
Qed.
End Bogus.
End Final2.
