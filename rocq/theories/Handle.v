(** Conflict-freedom of Clr is LR(1), of Slr SLR(1) (C88, C89). *)
From Coq Require Import List Bool Arith Lia.
From Verif Require Import BTree Model Base Spec SpecP GrammarP FirstFollow Closure ActTab LR Sound CanonLR Prefix LR1Spec.
Import ListNotations.

Section Rsf.
Context {T : Type} {OT : Ord T}.
Variable rules : rulemap T.
Variable start : T.
Notation prod_at := (prod_at rules).
Notation term := (term rules).
Notation nonterm := (nonterm rules).
Notation derives := (derives rules).
Notation rms := (rms rules).

(** right sentential forms by the nonterminal to rewrite: [d A w] *)
Inductive rsf : list T -> T -> list T -> Prop :=
| rsf_start : rsf [] start []
| rsf_sub d B x i b1 A b2 v : rsf d B x -> prod_at B i (b1 ++ A :: b2) -> derives b2 v -> Forall term v -> rsf (d ++ b1) A (v ++ x).

Lemma rsf_term d A w : rsf d A w -> Forall term w.
Proof. induction 1; auto. now apply Forall_app. Qed.

Lemma rms_trans u v w : rms u v -> rms v w -> rms u w.
Proof. intros H. induction 1; auto. econstructor; eauto. Qed.

Lemma trees_rms :
  (forall X w t, tree_of rules X w t -> forall c x, Forall term x -> rms (c ++ X :: x) (c ++ w ++ x)) /\
  (forall Xs w ts, trees_of rules Xs w ts -> forall c x, Forall term x -> rms (c ++ Xs ++ x) (c ++ w ++ x)).
Proof.
  apply tree_of_mut.
  - intros t _ c x _. constructor.
  - intros A i rhs w cs Hp _ IH c x Hx. apply (rms_trans _ (c ++ rhs ++ x)); auto. eapply rms_snoc; [constructor|]. econstructor; eauto.
  - intros c x _. constructor.
  - intros X Xs w1 w2 t ts H1 IH1 H2 IH2 c x Hx. apply (rms_trans _ (c ++ X :: w2 ++ x)).
    + specialize (IH2 (c ++ [X]) x Hx). now rewrite <- !app_assoc in IH2.
    + rewrite <- (app_assoc w1). apply IH1. apply Forall_app. split; auto.
      eapply (proj2 (trees_derives rules)); eauto.
Qed.

Lemma rsf_rms d A w : rsf d A w -> rms [start] (d ++ A :: w).
Proof.
  induction 1 as [|d B x i b1 A b2 v H IH Hp Hd Hv]; [constructor|].
  destruct (derives_trees _ _ _ Hd Hv) as (ts & Ht). pose proof (rsf_term _ _ _ H) as Hx.
  apply (rms_trans _ ((d ++ b1 ++ [A]) ++ b2 ++ x)).
  - eapply rms_snoc; [exact IH|]. replace ((d ++ b1 ++ [A]) ++ b2 ++ x) with (d ++ (b1 ++ A :: b2) ++ x).
    + econstructor; eauto.
    + rewrite <- !app_assoc. simpl. rewrite <- ?app_assoc. reflexivity.
  - replace ((d ++ b1) ++ A :: v ++ x) with ((d ++ b1 ++ [A]) ++ v ++ x) by (rewrite <- !app_assoc; reflexivity).
    now apply (proj2 trees_rms _ _ _ Ht).
Qed.

Lemma app_split (a b c d : list T) : a ++ b = c ++ d -> (exists z, a = c ++ z /\ d = z ++ b) \/ (exists z, c = a ++ z /\ b = z ++ d /\ z <> []).
Proof.
  revert c. induction a as [|x a IH]; intros c E; simpl in E.
  - destruct c as [|y c].
    + left. exists []. auto.
    + right. exists (y :: c). repeat split; auto. discriminate.
  - destruct c as [|y c]; simpl in E.
    + left. exists (x :: a). auto.
    + injection E as <- E. destruct (IH _ E) as [(z & -> & ->)|(z & -> & -> & Hz)]; [left|right]; exists z; auto.
Qed.

Lemma rsf_up d B z : rsf d B z -> forall a A c v, d = a ++ A :: c -> derives [B] v -> Forall term v -> Forall term c -> nonterm A ->
  rsf a A (c ++ v ++ z).
Proof.
  induction 1 as [|d B' x i b1 B b2 vv H IH Hp Hd Hv]; intros a A c v E Dv Tv Tc NA.
  - destruct a; discriminate.
  - destruct (app_split _ _ _ _ E) as [(zz & -> & Ez)|(zz & -> & -> & Hz)].
    + destruct zz as [|y zz].
      * simpl in Ez. subst b1. rewrite app_nil_r in *.
        replace (c ++ v ++ vv ++ x) with ((c ++ v ++ vv) ++ x) by now rewrite <- !app_assoc.
        rewrite <- (app_nil_r a). apply (rsf_sub a B' x i [] A (c ++ B :: b2)); auto.
        -- apply derives_app; [constructor|]. change (B :: b2) with ([B] ++ b2). now apply derives_app.
        -- apply Forall_app. split; auto. now apply Forall_app.
      * injection Ez as <- ->. apply Forall_app in Tc as [Tzz Tb1].
        replace ((zz ++ b1) ++ v ++ vv ++ x) with (zz ++ (b1 ++ v ++ vv) ++ x) by now rewrite <- !app_assoc.
        apply IH with (c := zz); auto.
        -- eapply derives_trans; [eapply derives_prod; eauto|]. apply derives_app; [constructor|].
           change (B :: b2) with ([B] ++ b2). now apply derives_app.
        -- apply Forall_app. split; auto. now apply Forall_app.
    + replace (c ++ v ++ vv ++ x) with ((c ++ v ++ vv) ++ x) by now rewrite <- !app_assoc.
      apply (rsf_sub d B' x i zz A (c ++ B :: b2)); auto.
      * now rewrite <- app_assoc in Hp.
      * apply derives_app; [constructor|]. change (B :: b2) with ([B] ++ b2). now apply derives_app.
      * apply Forall_app. split; auto. now apply Forall_app.
Qed.

Lemma rms_rsf_gen u : rms [start] u -> forall a A w, u = a ++ A :: w -> Forall term w -> nonterm A -> rsf a A w.
Proof.
  induction 1 as [|u v Hu IH Hs]; intros a A w E Tw NA.
  - destruct a as [|y a]; [|destruct a; discriminate]. injection E as <- <-. constructor.
  - destruct Hs as [c B i rhs z Hp Tz]. specialize (IH _ _ _ eq_refl Tz (prod_nonterm _ _ _ _ Hp)).
    destruct (app_split _ _ _ _ E) as [(y & -> & Ey)|(y & -> & Ey & Hy)].
    + destruct y as [|y0 y].
      * simpl in Ey. rewrite app_nil_r in IH. destruct rhs as [|r0 rhs].
        -- simpl in Ey. subst z. inversion Tz; subst. contradiction.
        -- injection Ey as <- ->. rewrite <- (app_nil_r a). apply Forall_app in Tw as [T1 T2]. eapply rsf_sub with (b1 := []); eauto. constructor.
      * injection Ey as <- ->. apply Forall_app in Tw as [T1 T2]. apply Forall_app in T2 as [T2 T3].
        eapply rsf_up; eauto. eapply derives_prod; eauto.
    + destruct (app_split _ _ _ _ Ey) as [(k & -> & Ek)|(k & -> & Ek & Hk)].
      * destruct k as [|k0 k].
        -- simpl in Ek. subst z. inversion Tz; subst. contradiction.
        -- injection Ek as <- ->. apply Forall_app in Tw as [T1 T2]. eapply rsf_sub; eauto. constructor.
      * exfalso. rewrite Ek in Tz. apply Forall_app in Tz as [_ Tz]. inversion Tz; contradiction.
Qed.

Lemma rms_rsf a A w : rms [start] (a ++ A :: w) -> Forall term w -> nonterm A -> rsf a A w.
Proof. eauto using rms_rsf_gen. Qed.

(** below a nonterminal there is a handle with nothing but terminals around it *)
Lemma handle_below :
  (forall X w t, tree_of rules X w t -> forall b x, nonterm X -> rsf b X x ->
     exists c D j rhs x2 u, rsf c D x2 /\ prod_at D j rhs /\ Forall term u /\ c ++ rhs ++ x2 = b ++ u /\ length x2 <= length u) /\
  (forall Xs w ts, trees_of rules Xs w ts -> forall b B x i b0, rsf b B x -> prod_at B i (b0 ++ Xs) ->
     exists c D j rhs x2 u, rsf c D x2 /\ prod_at D j rhs /\ Forall term u /\ c ++ rhs ++ x2 = b ++ b0 ++ u /\ length x2 <= length u).
Proof.
  apply tree_of_mut.
  - intros t Ht b x Hn. contradiction.
  - intros A i rhs w cs Hp _ IH b x _ Hr. destruct (IH b A x i [] Hr Hp) as (c & D & j & r & x2 & u & H). exists c, D, j, r, x2, u. exact H.
  - intros b B x i b0 Hr Hp. exists b, B, i, b0, x, x. rewrite app_nil_r in Hp. repeat split; auto. now apply rsf_term in Hr.
  - intros X Xs w1 w2 t ts H1 IH1 H2 IH2 b B x i b0 Hr Hp. destruct (nonterm_dec rules X) as [HX|HX].
    + destruct (proj2 (trees_derives rules) _ _ _ H2) as [D2 T2].
      destruct (IH1 (b ++ b0) (w2 ++ x) HX) as (c & D & j & r & x2 & u & K1 & K2 & K3 & K4 & K5).
      { eapply rsf_sub; eauto. }
      exists c, D, j, r, x2, u. rewrite <- app_assoc in K4. auto.
    + destruct (IH2 b B x i (b0 ++ [X]) Hr) as (c & D & j & r & x2 & u & K1 & K2 & K3 & K4 & K5).
      { now rewrite <- app_assoc. }
      exists c, D, j, r, x2, (X :: u). rewrite <- app_assoc in K4. repeat split; auto. simpl. lia.
Qed.
End Rsf.

Section Auto.
Context {T : Type} {OT : Ord T}.
Variables (g : grammar T) (start eof : T) (p0 : production T).
Variable sts : list (state T).
Variable sfk : state T -> option nat.
Variable lookf : position T -> res (bset T).
Variable acts : acttable T.
Notation rules := (g_rules g).
Notation lr0 := (lr0 g start eof p0 sts sfk lookf acts).
Notation has := (has sts).
Notation hasl := (hasl sts lookf).
Notation tr := (tr sts sfk).
Notation path := (path sts sfk).
Notation just := (just g start p0 sts).
Notation justl := (justl g start eof p0 sts lookf).
Notation rsf := (rsf rules start).
Hypothesis L : lr0.
Hypothesis Hone : forall i rhs, prod_at rules start i rhs -> (rhs, i) = p0.

Lemma path_fun qs Xs : path qs Xs -> forall qs', path qs' Xs -> qs = qs'.
Proof.
  induction 1 as [|q qs X Xs n H IH Ht]; intros qs' H'; inversion H' as [|q1 qs1 X1 Xs1 n1 H1 Ht1]; subst; auto.
  specialize (IH _ H1). injection IH as <- <-. f_equal. eapply tr_fun; eauto.
Qed.

(** ** every valid item is in the state reached by its prefix *)
Lemma walk A pr p : forall q qs Xs, path (q :: qs) Xs -> has q A pr 0 -> p <= length (fst pr) ->
  exists q' qs', path (q' :: qs') (rev (firstn p (fst pr)) ++ Xs) /\ has q' A pr p.
Proof.
  induction p as [|p IH]; intros q qs Xs P H Hp; [exists q, qs; auto|].
  destruct (IH _ _ _ P H) as (q' & qs' & P' & H'); [lia|].
  destruct (nth_error (fst pr) p) as [X|] eqn:E; [|apply nth_error_None in E; lia].
  destruct (l_tr _ _ _ _ _ _ _ _ L _ _ _ _ _ H' E) as (n & Ht). exists n, (q' :: qs'). split.
  - rewrite (firstn_S_nth _ _ _ E), rev_app_distr. simpl. econstructor; eauto.
  - eapply (l_fwd _ _ _ _ _ _ _ _ L); eauto.
Qed.

Lemma rsf_has d A w : rsf d A w -> forall i rhs p, prod_at rules A i rhs -> p <= length rhs ->
  exists q qs, path (q :: qs) (rev (d ++ firstn p rhs)) /\ has q A (rhs, i) p.
Proof.
  induction 1 as [|d B x j b1 A b2 v H IH Hp Hd Hv]; intros i rhs p Hpr Hle.
  - destruct (walk start p0 p 0 [] []) as (q & qs & P & Hh).
    + constructor.
    + apply (l_start _ _ _ _ _ _ _ _ L).
    + now rewrite <- (Hone _ _ Hpr).
    + rewrite <- (Hone _ _ Hpr) in *. rewrite app_nil_r in P. eauto.
  - destruct (IH _ _ (length b1) Hp) as (q & qs & P & Hh); [rewrite app_length; lia|].
    rewrite firstn_app, firstn_all, Nat.sub_diag, app_nil_r in P.
    assert (has q A (rhs, i) 0) as H0.
    { eapply (l_clo _ _ _ _ _ _ _ _ L); eauto. simpl. rewrite nth_error_app2, Nat.sub_diag; auto. }
    destruct (walk _ _ p _ _ _ P H0) as (q' & qs' & P' & H'); auto. exists q', qs'. split; auto. simpl in P'.
    now rewrite (rev_app_distr (d ++ b1)).
Qed.

Section Look.
Hypothesis C : lr1c g start eof p0 sts sfk lookf.
Hypothesis He : term rules eof.

Lemma walkl A pr t p : forall q qs Xs, path (q :: qs) Xs -> hasl q A pr 0 t -> p <= length (fst pr) ->
  exists q' qs', path (q' :: qs') (rev (firstn p (fst pr)) ++ Xs) /\ hasl q' A pr p t.
Proof.
  induction p as [|p IH]; intros q qs Xs P H Hp; [exists q, qs; auto|].
  destruct (IH _ _ _ P H) as (q' & qs' & P' & H'); [lia|].
  destruct (nth_error (fst pr) p) as [X|] eqn:E; [|apply nth_error_None in E; lia].
  destruct (l_tr _ _ _ _ _ _ _ _ L _ _ _ _ _ (hasl_has _ _ _ _ _ _ _ H') E) as (n & Ht). exists n, (q' :: qs'). split.
  - rewrite (firstn_S_nth _ _ _ E), rev_app_distr. simpl. econstructor; eauto.
  - eapply (c_fwd _ _ _ _ _ _ _ C); eauto.
Qed.

Lemma next_term w : Forall (term rules) w -> term rules (next eof w).
Proof. destruct 1; simpl; auto. Qed.

Lemma rsf_hasl d A w : rsf d A w -> forall i rhs p, prod_at rules A i rhs -> p <= length rhs ->
  exists q qs, path (q :: qs) (rev (d ++ firstn p rhs)) /\ hasl q A (rhs, i) p (next eof w).
Proof.
  induction 1 as [|d B x j b1 A b2 v H IH Hp Hd Hv]; intros i rhs p Hpr Hle.
  - destruct (walkl start p0 eof p 0 [] []) as (q & qs & P & Hh).
    + constructor.
    + apply (c_start _ _ _ _ _ _ _ C).
    + now rewrite <- (Hone _ _ Hpr).
    + rewrite <- (Hone _ _ Hpr) in *. rewrite app_nil_r in P. eauto.
  - destruct (IH _ _ (length b1) Hp) as (q & qs & P & Hh); [rewrite app_length; lia|].
    rewrite firstn_app, firstn_all, Nat.sub_diag, app_nil_r in P.
    assert (nth_error (b1 ++ A :: b2) (length b1) = Some A) as E1 by (rewrite nth_error_app2, Nat.sub_diag; auto).
    assert (nth_error (b1 ++ A :: b2) (S (length b1)) = nth_error b2 0) as E2.
    { rewrite nth_error_app2 by lia. now replace (S (length b1) - length b1) with 1 by lia. }
    assert (hasl q A (rhs, i) 0 (next eof (v ++ x))) as H0.
    { destruct b2 as [|Y b3].
      - apply derives_nil in Hd. subst v. simpl. eapply (c_last _ _ _ _ _ _ _ C); eauto.
        + apply next_term. eapply rsf_term; eauto.
      - assert (exists y v', v = y :: v' /\ first_spec rules Y y) as (y & v' & -> & Hf).
        { destruct v as [|y v'].
          - apply (derives_nonempty _ _ _ (l_noempty _ _ _ _ _ _ _ _ L)) in Hd. simpl in Hd. lia.
          - exists y, v'. split; auto. inversion Hv; subst. split; auto. change (Y :: b3) with ([Y] ++ b3) in Hd.
            apply derives_split in Hd as (w1 & w2 & E & D1 & D2). destruct w1 as [|y1 w1].
            + apply (derives_nonempty _ _ _ (l_noempty _ _ _ _ _ _ _ _ L)) in D1. simpl in D1. lia.
            + injection E as <- _. eauto. }
        simpl. eapply (c_first _ _ _ _ _ _ _ C); eauto using hasl_has. }
    destruct (walkl _ _ _ p _ _ _ P H0) as (q' & qs' & P' & H'); auto. exists q', qs'. split; auto. simpl in P'.
    now rewrite (rev_app_distr (d ++ b1)).
Qed.

Lemma clean_LR1 : conflicts acts = [] -> LR1 rules start eof.
Proof.
  intros Hc a A i rhs w b B j rhs' x y R1 P1 T1 R2 P2 T2 E Ty En.
  apply rms_rsf in R1; auto; [|eapply prod_nonterm; eauto]. apply rms_rsf in R2; auto; [|eapply prod_nonterm; eauto].
  destruct (rsf_hasl _ _ _ R1 i rhs (length rhs) P1 (le_n _)) as (q1 & qs1 & Q1 & H1).
  destruct (rsf_hasl _ _ _ R2 j rhs' (length rhs') P2 (le_n _)) as (q2 & qs2 & Q2 & H2).
  rewrite firstn_all in Q1, Q2.
  assert (forall q t, ~ conflicted acts q t) as NC by (intros; eapply clean_no_conflict; eauto).
  assert (X : forall z c qs qs' u q A i rhs t, path qs (rev (u ++ c :: z)) -> path (q :: qs') (rev u) -> hasl q A (rhs, i) (length rhs) t ->
     t = c -> term rules c -> False).
  { clear - L NC. intros z c qs qs' u q A i rhs t P Q H -> Hc. apply (path_skip _ _ _ _ (length z)) in P.
    2: { rewrite rev_length, app_length. simpl. lia. }
    replace (skipn (length z) (rev (u ++ c :: z))) with (c :: rev u) in P.
    2: { rewrite rev_app_distr. simpl. rewrite <- app_assoc, skipn_app, rev_length, Nat.sub_diag, skipn_all2; [reflexivity|now rewrite rev_length]. }
    inversion P as [|q1 qs1 X1 Xs1 n P1 Ht]; subst. pose proof (path_fun _ _ P1 _ Q) as EE. injection EE as -> ->.
    pose proof Ht as (row & [A' pr' p' l'] & K1 & K2 & K3 & K4). rewrite ptop_nth in K3.
    assert (has q A' pr' p') as Hh by (exists row, l'; auto).
    destruct (has_entry _ _ _ _ _ _ _ _ L _ _ _ _ _ _ Hh K3 Ht) as [E1|E1]; [|now apply NC in E1].
    destruct (hasl_entry _ _ _ _ _ _ _ _ L _ _ _ _ H) as [E2|E2]; [|now apply NC in E2].
    apply is_terminal_term in Hc. rewrite Hc in E1. destruct (eqb A start); congruence. }
  rewrite !app_assoc in E. destruct (app_split _ _ _ _ E) as [(z & Ez & Ez')|(z & Ez & Ez' & Hz)].
  - destruct z as [|c z].
    + simpl in Ez'. rewrite app_nil_r in Ez. subst y. rewrite Ez in Q2. pose proof (path_fun _ _ Q1 _ Q2) as EE. injection EE as -> ->.
      rewrite En in H1.
      destruct (hasl_entry _ _ _ _ _ _ _ _ L _ _ _ _ H1) as [E1|E1]; [|now apply NC in E1].
      destruct (hasl_entry _ _ _ _ _ _ _ _ L _ _ _ _ H2) as [E2|E2]; [|now apply NC in E2].
      rewrite E1 in E2. assert (A = B /\ i = j) as [-> ->].
      { destruct (eqb_spec A start) as [->|N1]; destruct (eqb_spec B start) as [->|N2]; try discriminate.
        - split; auto. pose proof (Hone _ _ P1). pose proof (Hone _ _ P2). congruence.
        - injection E2 as -> _ ->. auto. }
      assert (rhs = rhs') as -> by (eapply prod_at_fun; eauto). apply app_inv_tail in Ez. auto.
    + exfalso. subst y. rewrite Ez in Q2. eapply (X z c _ qs1 (a ++ rhs) q1); eauto. now apply Forall_app, proj1, Forall_inv in Ty.
  - destruct z as [|c z]; [congruence|]. exfalso. subst x. rewrite Ez in Q1. eapply (X z c _ qs2 (b ++ rhs') q2); eauto.
    now apply Forall_app, proj1, Forall_inv in T2.
Qed.
End Look.

(** ** every item of a reached state is valid *)
Hypothesis Hprod : productive rules.

Lemma just_rsf q qs Xs A pr p : path (q :: qs) Xs -> just q A pr p ->
  exists a w, rsf a A w /\ rev Xs = a ++ firstn p (fst pr).
Proof.
  remember (length Xs) as n eqn:En. assert (Hn : length Xs <= n) by lia. clear En. revert q qs Xs A pr p Hn.
  induction n as [n IHn] using (well_founded_induction lt_wf). intros q qs Xs A pr p Hlen Hp J.
  induction J as [|q A pr p Hh|q A pr p B i rhs J IHJ Hn Hpr].
  - exists [], []. split; [constructor|]. assert (Xs = []) as ->.
    { apply (path_zero _ _ _ _ _ _ _ _ L _ _ 0) in Hp; auto. now destruct Xs. }
    reflexivity.
  - inversion Hp as [|q1 qs1 X Xs1 n1 Hp1 Ht]; subst.
    + apply (l_zero _ _ _ _ _ _ _ _ L) in Hh. discriminate.
    + destruct (l_back _ _ _ _ _ _ _ _ L _ _ _ _ _ _ Ht Hh) as [Hh1 Hx].
      simpl in Hlen. destruct (IHn (length Xs1)) with (q := q1) (qs := qs1) (Xs := Xs1) (A := A) (pr := pr) (p := p)
        as (a & w & H1 & H2); auto; try lia.
      { now apply (l_just _ _ _ _ _ _ _ _ L). }
      exists a, w. split; auto. simpl. rewrite H2, <- app_assoc. f_equal. symmetry. now apply firstn_S_nth.
  - destruct (IHJ Hp) as (a & w & H1 & H2). destruct (productive_str g (skipn (S p) (fst pr)) Hprod) as (v & D & Tv).
    exists (a ++ firstn p (fst pr)), (v ++ w). split.
    + assert (prod_at rules A (snd pr) (fst pr)) as HA by (apply (just_has _ _ _ _ _ _ _ _ L) in J; eapply (l_valid _ _ _ _ _ _ _ _ L); eauto).
      eapply rsf_sub; eauto. rewrite <- (skipn_nth_cons _ _ _ Hn), firstn_skipn. exact HA.
    + simpl. now rewrite app_nil_r.
Qed.

Lemma has_rsf q qs Xs A pr p : path (q :: qs) Xs -> has q A pr p -> exists a w, rsf a A w /\ rev Xs = a ++ firstn p (fst pr).
Proof. intros P H. eapply just_rsf; eauto. now apply (l_just _ _ _ _ _ _ _ _ L). Qed.

Section Look2.
Hypothesis S1 : lr1s g start eof p0 sts sfk lookf.

Lemma justl_rsf q qs Xs A pr p t : term rules t -> path (q :: qs) Xs -> justl q A pr p t ->
  exists a w, rsf a A w /\ rev Xs = a ++ firstn p (fst pr) /\ next eof w = t.
Proof.
  intros Hter. remember (length Xs) as n eqn:En. assert (Hn : length Xs <= n) by lia. clear En. revert q qs Xs A pr p Hn.
  induction n as [n IHn] using (well_founded_induction lt_wf). intros q qs Xs A pr p Hlen Hp J. revert Hp Hter.
  induction J as [|q A pr p t H|q A pr p B Y i rhs t J Hn Hy Hpr Hf|q A pr p B i rhs t J IHJ Hn Hy Hpr]; intros Hp Hter.
  - exists [], []. split; [constructor|]. assert (Xs = []) as ->.
    { apply (path_zero _ _ _ _ _ _ _ _ L _ _ 0) in Hp; auto. now destruct Xs. }
    auto.
  - inversion Hp as [|q1 qs1 X Xs1 n1 Hp1 Ht]; subst.
    + apply hasl_has, (l_zero _ _ _ _ _ _ _ _ L) in H. discriminate.
    + destruct (l_back _ _ _ _ _ _ _ _ L _ _ _ _ _ _ Ht (hasl_has _ _ _ _ _ _ _ H)) as [_ Hx].
      pose proof (s_back _ _ _ _ _ _ _ S1 _ _ _ _ _ _ _ Ht H) as Hl.
      simpl in Hlen. destruct (IHn (length Xs1)) with (q := q1) (qs := qs1) (Xs := Xs1) (A := A) (pr := pr) (p := p)
        as (a & w & H1 & H2 & H3); auto; try lia.
      { now apply (s_just _ _ _ _ _ _ _ S1). }
      exists a, w. split; auto. split; auto. simpl. rewrite H2, <- app_assoc. f_equal. symmetry. now apply firstn_S_nth.
  - destruct (just_rsf _ _ _ _ _ _ Hp J) as (a & w & H1 & H2).
    destruct Hf as [_ (v1 & D1)]. destruct (productive_str g (v1 ++ skipn (S (S p)) (fst pr)) Hprod) as (v & D & Tv).
    exists (a ++ firstn p (fst pr)), ((t :: v) ++ w). split; [|split; auto].
    + assert (prod_at rules A (snd pr) (fst pr)) as HA by (apply (just_has _ _ _ _ _ _ _ _ L) in J; eapply (l_valid _ _ _ _ _ _ _ _ L); eauto).
      eapply rsf_sub with (b2 := skipn (S p) (fst pr)); eauto.
      * rewrite <- (skipn_nth_cons _ _ _ Hn), firstn_skipn. exact HA.
      * rewrite (skipn_nth_cons _ _ _ Hy). change (Y :: skipn (S (S p)) (fst pr)) with ([Y] ++ skipn (S (S p)) (fst pr)).
        eapply derives_trans; [apply derives_app; [exact D1|constructor]|]. now apply (derives_cons _ t).
    + simpl. now rewrite app_nil_r.
  - destruct IHJ as (a & w & H1 & H2 & H3); auto.
    assert (skipn (S p) (fst pr) = []) as Es by (apply skipn_all2; now apply nth_error_None).
    exists (a ++ firstn p (fst pr)), ([] ++ w). split; [|split; auto].
    + assert (prod_at rules A (snd pr) (fst pr)) as HA by (apply (justl_has _ _ _ _ _ _ _ _ L) in J; eapply (l_valid _ _ _ _ _ _ _ _ L); eauto).
      eapply rsf_sub with (b2 := skipn (S p) (fst pr)); eauto.
      * rewrite <- (skipn_nth_cons _ _ _ Hn), firstn_skipn. exact HA.
      * rewrite Es. constructor.
    + simpl. now rewrite app_nil_r.
Qed.

Hypothesis Hlook : forall q A pr p t, hasl q A pr p t -> term rules t.
Hypothesis Hreach : forall q, q < length sts -> exists qs Xs, path (q :: qs) Xs.

Lemma hasl_rsf q qs Xs A pr p t : path (q :: qs) Xs -> hasl q A pr p t ->
  exists a w, rsf a A w /\ rev Xs = a ++ firstn p (fst pr) /\ next eof w = t.
Proof. intros P H. pose proof (Hlook _ _ _ _ _ H). eapply justl_rsf; eauto. now apply (s_just _ _ _ _ _ _ _ S1). Qed.
End Look2.

Section Conf.
Hypothesis Hlook : forall q A pr p t, hasl q A pr p t -> term rules t.
Hypothesis Hreach : forall q, q < length sts -> exists qs Xs, path (q :: qs) Xs.

(** what a conflict comes from: two different complete items, or a complete item and one to be shifted *)
Lemma conflict_items q t : conflicted acts q t -> exists qs Xs, path (q :: qs) Xs /\ term rules t /\
  ((exists A pr B pr', hasl q A pr (length (fst pr)) t /\ hasl q B pr' (length (fst pr')) t /\ (A, pr) <> (B, pr')) \/
   (exists A pr B pr' p, hasl q A pr (length (fst pr)) t /\ has q B pr' p /\ nth_error (fst pr') p = Some t)).
Proof.
  intros (c1 & c2 & E). unfold entry in E. destruct (nth_error acts q) as [m|] eqn:Em; [|discriminate].
  apply (row_spec' _ _ _ _ _ _ _ _ L) in Em as (row & Er & Hok).
  destruct (Hreach q) as (qs & Xs & P); [apply nth_error_Some; congruence|]. exists qs, Xs. split; auto.
  destruct Hok as (_ & Hl & Hw). destruct (Hw _ _ E eq_refl) as (x & y & Hx & Hy & N).
  destruct (proj1 (Hl t x)) as (pos & Hp & Dx); [eauto|]. destruct (proj1 (Hl t y)) as (pos' & Hp' & Dy); [eauto|].
  assert (Co : forall pos look, In pos row -> ptop pos = None -> lookf pos = Val look -> In t look ->
     hasl q (p_rule pos) (p_seq pos) (length (fst (p_seq pos))) t).
  { clear - L Er. intros pos look H1 H2 H3 H4. pose proof (done_point _ _ _ _ _ _ _ _ L _ _ _ Er H1 H2) as E.
    destruct pos as [A pr p l]. simpl in *. subst p. exists row, l, look. auto. }
  assert (Sh : forall pos, In pos row -> ptop pos = Some t -> exists B pr' p, has q B pr' p /\ nth_error (fst pr') p = Some t).
  { clear - Er. intros [A pr p l] H1 H2. rewrite ptop_nth in H2. exists A, pr, p. split; auto. exists row, l. auto. }
  destruct Dx as [t n K1 K2 K3|t n K1 K2 K3|t look K1 K2 K3 K4|t look K1 K2 K3 K4];
  destruct Dy as [t n' K1' K2' K3'|t n' K1' K2' K3'|t look' K1' K2' K3' K4'|t look' K1' K2' K3' K4'];
  try congruence; try contradiction;
  try (pose proof (Co _ _ Hp K1 K2 K3) as HC); try (pose proof (Co _ _ Hp' K1' K2' K3') as HC');
  try (split; [solve [eauto]|]);
  try (destruct (Sh _ Hp K1) as (B & pr' & p & S1 & S2)); try (destruct (Sh _ Hp' K1') as (B' & pr'' & p' & S1' & S2'));
  try (right; eauto 10; fail).
  all: left; do 4 eexists; split; [exact HC|]; split; [exact HC'|]; intros E1; apply N; injection E1 as E1 E2; congruence.
Qed.

Lemma LR1_clean : lr1s g start eof p0 sts sfk lookf -> LR1 rules start eof -> conflicts acts = [].
Proof.
  intros S1 H1. apply (no_conflict_clean _ _ _ _ _ _ _ _ L). intros q t Hc.
  destruct (conflict_items _ _ Hc) as (qs & Xs & P & Ht & [(A & pr & B & pr' & HA & HB & N)|(A & pr & B & pr' & p & HA & HB & Hn)]).
  - destruct (hasl_rsf S1 Hlook _ _ _ _ _ _ _ P HA) as (a & w & Ra & Ea & Na). destruct (hasl_rsf S1 Hlook _ _ _ _ _ _ _ P HB) as (b & x & Rb & Eb & Nb).
    rewrite firstn_all in Ea, Eb.
    destruct (l_valid _ _ _ _ _ _ _ _ L _ _ _ _ (hasl_has _ _ _ _ _ _ _ HA)) as [PA _].
    destruct (l_valid _ _ _ _ _ _ _ _ L _ _ _ _ (hasl_has _ _ _ _ _ _ _ HB)) as [PB _].
    destruct (H1 a A (snd pr) (fst pr) w b B (snd pr') (fst pr') x x) as (_ & <- & E & _); eauto using rsf_rms, rsf_term.
    + rewrite !app_assoc. f_equal. congruence.
    + congruence.
    + apply N. rewrite <- E in PB. pose proof (prod_at_fun _ _ _ _ _ PA PB). destruct pr, pr'; simpl in *; congruence.
  - destruct (hasl_rsf S1 Hlook _ _ _ _ _ _ _ P HA) as (a & w & Ra & Ea & Na). destruct (has_rsf _ _ _ _ _ _ P HB) as (b & x & Rb & Eb).
    rewrite firstn_all in Ea. destruct (l_valid _ _ _ _ _ _ _ _ L _ _ _ _ (hasl_has _ _ _ _ _ _ _ HA)) as [PA _].
    destruct (l_valid _ _ _ _ _ _ _ _ L _ _ _ _ HB) as [PB _].
    destruct (productive_str g (skipn (S p) (fst pr')) Hprod) as (v & D & Tv). destruct (derives_trees _ _ _ D Tv) as (ts & Hts).
    destruct (proj2 (handle_below rules start) _ _ _ Hts b B x (snd pr') (firstn p (fst pr') ++ [t]) Rb) as (c & D' & j & rhs & x2 & u & K1 & K2 & K3 & K4 & K5).
    { rewrite <- app_assoc. cbn [app]. rewrite <- (skipn_nth_cons _ _ _ Hn), firstn_skipn. exact PB. }
    destruct (H1 a A (snd pr) (fst pr) w c D' j rhs x2 (t :: u)) as (_ & _ & _ & E); eauto using rsf_rms, rsf_term.
    + rewrite K4. rewrite <- app_assoc, (app_assoc b), <- Eb, Ea, <- app_assoc. reflexivity.
    + rewrite E in K5. simpl in K5. lia.
Qed.

(** ** lookahead by FOLLOW *)
Section Slr.
Hypothesis Hf : forall q A pr p t, hasl q A pr p t <-> has q A pr p /\ follow_rules rules start eof A t.

Lemma valid_has pre A i u v : valid_after rules start pre A i u v -> exists q qs, path (q :: qs) (rev pre) /\ has q A (u ++ v, i) (length u).
Proof.
  intros (Hp & a & w & R & Tw & ->). apply rms_rsf in R; auto; [|eapply prod_nonterm; eauto].
  destruct (rsf_has _ _ _ R _ _ (length u) Hp) as (q & qs & P & H); [rewrite app_length; lia|].
  rewrite firstn_app, firstn_all, Nat.sub_diag, app_nil_r in P. eauto.
Qed.

Lemma has_valid_after q qs Xs A pr p : path (q :: qs) Xs -> has q A pr p ->
  valid_after rules start (rev Xs) A (snd pr) (firstn p (fst pr)) (skipn p (fst pr)).
Proof.
  intros P H. destruct (has_rsf _ _ _ _ _ _ P H) as (a & w & R & E). split.
  - rewrite firstn_skipn. eapply (l_valid _ _ _ _ _ _ _ _ L); eauto.
  - exists a, w. eauto using rsf_rms, rsf_term.
Qed.

Lemma clean_SLR1 : (forall q A pr p t, has q A pr p -> follow_rules rules start eof A t -> hasl q A pr p t) -> conflicts acts = [] -> SLR1 rules start eof.
Proof.
  intros Hf' Hc. assert (forall q t, ~ conflicted acts q t) as NC by (intros; eapply clean_no_conflict; eauto). split.
  - intros pre A i u B j v t VA VB FA FB Ht. apply valid_has in VA as (q & qs & P & HA). apply valid_has in VB as (q' & qs' & P' & HB).
    pose proof (path_fun _ _ P _ P') as E. injection E as <- <-. rewrite app_nil_r in HA, HB.
    assert (hasl q A (u, i) (length u) t) as LA by (apply Hf'; auto). assert (hasl q B (v, j) (length v) t) as LB by (apply Hf'; auto).
    destruct (hasl_entry _ _ _ _ _ _ _ _ L _ _ _ _ LA) as [E1|E1]; [|now apply NC in E1].
    destruct (hasl_entry _ _ _ _ _ _ _ _ L _ _ _ _ LB) as [E2|E2]; [|now apply NC in E2].
    rewrite E1 in E2. destruct (eqb_spec A start) as [->|N1]; destruct (eqb_spec B start) as [->|N2]; try discriminate.
    + split; auto. apply (l_valid _ _ _ _ _ _ _ _ L) in HA as [HA _], HB as [HB _]. apply Hone in HA, HB. simpl in *. congruence.
    + injection E2 as -> _ ->. auto.
  - intros pre A i u B j v t v' VA VB Ht FA. apply valid_has in VA as (q & qs & P & HA). apply valid_has in VB as (q' & qs' & P' & HB).
    pose proof (path_fun _ _ P _ P') as E. injection E as <- <-. rewrite app_nil_r in HA.
    assert (hasl q A (u, i) (length u) t) as LA by (apply Hf'; auto).
    assert (nth_error (fst (v ++ t :: v', j)) (length v) = Some t) as En by (simpl; rewrite nth_error_app2, Nat.sub_diag; auto).
    destruct (l_tr _ _ _ _ _ _ _ _ L _ _ _ _ _ HB En) as (n & Htr).
    destruct (hasl_entry _ _ _ _ _ _ _ _ L _ _ _ _ LA) as [E1|E1]; [|now apply NC in E1].
    destruct (has_entry _ _ _ _ _ _ _ _ L _ _ _ _ _ _ HB En Htr) as [E2|E2]; [|now apply NC in E2].
    apply is_terminal_term in Ht. rewrite Ht in E2. destruct (eqb A start); congruence.
Qed.

Lemma SLR1_clean : SLR1 rules start eof -> conflicts acts = [].
Proof.
  intros [H1 H2]. apply (no_conflict_clean _ _ _ _ _ _ _ _ L). intros q t Hc.
  destruct (conflict_items _ _ Hc) as (qs & Xs & P & Ht & [(A & pr & B & pr' & HA & HB & N)|(A & pr & B & pr' & p & HA & HB & Hn)]).
  - apply Hf in HA as [HA FA], HB as [HB FB].
    destruct (l_valid _ _ _ _ _ _ _ _ L _ _ _ _ HA) as [PA _]. destruct (l_valid _ _ _ _ _ _ _ _ L _ _ _ _ HB) as [PB _].
    pose proof (has_valid_after _ _ _ _ _ _ P HA) as VA. pose proof (has_valid_after _ _ _ _ _ _ P HB) as VB.
    rewrite firstn_all, skipn_all in VA, VB. destruct (H1 _ _ _ _ _ _ _ _ VA VB FA FB Ht) as [-> E].
    apply N. rewrite <- E in PB. pose proof (prod_at_fun _ _ _ _ _ PA PB). destruct pr, pr'; simpl in *; congruence.
  - apply Hf in HA as [HA FA]. pose proof (has_valid_after _ _ _ _ _ _ P HA) as VA. pose proof (has_valid_after _ _ _ _ _ _ P HB) as VB.
    rewrite firstn_all, skipn_all in VA. rewrite (skipn_nth_cons _ _ _ Hn) in VB. eapply H2; eauto.
Qed.
End Slr.

(** ** lookaheads merged over equal item sets *)
Definition alike (q q' : nat) : Prop := forall A pr p, has q A pr p <-> has q' A pr p.

(** the states of the table, merged by item sets, have no conflict *)
Definition merge_clean : Prop :=
  (forall q q' A pr B pr' t, alike q q' -> hasl q A pr (length (fst pr)) t -> hasl q' B pr' (length (fst pr')) t -> A = B /\ pr = pr') /\
  (forall q A pr B pr' p t, hasl q A pr (length (fst pr)) t -> has q B pr' p -> nth_error (fst pr') p = Some t -> False).

Lemma same_alike q qs pre q' qs' pre' : path (q :: qs) (rev pre) -> path (q' :: qs') (rev pre') -> same_items rules start pre pre' -> alike q q'.
Proof.
  assert (X : forall q qs pre q' qs' pre' A pr p, path (q :: qs) (rev pre) -> path (q' :: qs') (rev pre') ->
    (forall A i u v, valid_after rules start pre A i u v -> valid_after rules start pre' A i u v) -> has q A pr p -> has q' A pr p).
  { clear q qs pre q' qs' pre'. intros q qs pre q' qs' pre' A pr p P P' H Hh. pose proof (l_valid _ _ _ _ _ _ _ _ L _ _ _ _ Hh) as [_ Hle].
    apply (has_valid_after _ _ _ _ _ _ P) in Hh. rewrite rev_involutive in Hh. apply H, valid_has in Hh as (q2 & qs2 & P2 & H2).
    pose proof (path_fun _ _ P' _ P2) as E. injection E as <- <-. rewrite firstn_skipn, firstn_length_le in H2 by auto. now destruct pr. }
  intros P P' H A pr p. split; eapply X; eauto; intros A0 i u v; apply H.
Qed.

Lemma alike_same q qs pre q' qs' pre' : path (q :: qs) (rev pre) -> path (q' :: qs') (rev pre') -> alike q q' -> same_items rules start pre pre'.
Proof.
  assert (X : forall q qs pre q' qs' pre' A i u v, path (q :: qs) (rev pre) -> path (q' :: qs') (rev pre') ->
    (forall A pr p, has q A pr p -> has q' A pr p) -> valid_after rules start pre A i u v -> valid_after rules start pre' A i u v).
  { clear q qs pre q' qs' pre'. intros q qs pre q' qs' pre' A i u v P P' H V. apply valid_has in V as (q2 & qs2 & P2 & H2).
    pose proof (path_fun _ _ P _ P2) as E. injection E as <- <-. apply H in H2. apply (has_valid_after _ _ _ _ _ _ P') in H2.
    cbn [fst snd] in H2. rewrite rev_involutive in H2.
    now rewrite firstn_app, skipn_app, firstn_all, skipn_all, Nat.sub_diag, app_nil_r in H2. }
  intros P P' H A i u v. split; eapply X; eauto; intros A0 pr p; apply H.
Qed.

Section Merge.
Hypothesis C : lr1c g start eof p0 sts sfk lookf.
Hypothesis He : term rules eof.

Lemma merged_hasl pre A i u t : merged_look rules start eof pre A i u t ->
  exists q qs q', path (q :: qs) (rev pre) /\ alike q q' /\ hasl q' A (u, i) (length u) t.
Proof.
  intros (Hp & a & w & Hsame & R & Tw & Hn).
  assert (valid_after rules start pre A i u []) as V.
  { apply Hsame. split; [now rewrite app_nil_r|]. exists a, w. auto. }
  apply valid_has in V as (q & qs & P & _). apply rms_rsf in R; auto; [|eapply prod_nonterm; eauto].
  destruct (rsf_hasl C He _ _ _ R i u (length u) Hp (le_n _)) as (q' & qs' & P' & H'). rewrite firstn_all in P'. rewrite Hn in H'.
  exists q, qs, q'. split; auto. split; auto. eapply same_alike; eauto.
Qed.

Lemma merge_LALR1 : merge_clean -> LALR1 rules start eof.
Proof.
  intros [M1 M2]. split.
  - intros pre A i u B j v t VA VB. apply merged_hasl in VA as (q & qs & q1 & P & A1 & H1). apply merged_hasl in VB as (q' & qs' & q2 & P' & A2 & H2).
    pose proof (path_fun _ _ P _ P') as E. injection E as <- <-.
    destruct (M1 q1 q2 A (u, i) B (v, j) t) as [-> E2]; auto; [|split; congruence].
    intros A0 pr p. rewrite <- (A1 A0 pr p). apply A2.
  - intros pre A i u B j v t v' VA VB _. apply merged_hasl in VA as (q & qs & q1 & P & A1 & H1).
    apply valid_has in VB as (q' & qs' & P' & H2). pose proof (path_fun _ _ P _ P') as E. injection E as <- <-. apply A1 in H2.
    eapply (M2 q1 A (u, i) B (v ++ t :: v', j) (length v) t); eauto. simpl. rewrite nth_error_app2, Nat.sub_diag; auto.
Qed.

Lemma clean_merge : (forall q q', q < length sts -> q' < length sts -> alike q q' -> q = q') -> conflicts acts = [] ->
  (forall q A pr p t, hasl q A pr p t -> term rules t) -> merge_clean.
Proof.
  intros Hinj Hc Hl. assert (forall q t, ~ conflicted acts q t) as NC by (intros; eapply clean_no_conflict; eauto). split.
  - intros q q' A pr B pr' t Hal HA HB. assert (q = q') as <-.
    { apply Hinj; auto; eapply has_row, hasl_has; eauto. }
    destruct (hasl_entry _ _ _ _ _ _ _ _ L _ _ _ _ HA) as [E1|E1]; [|now apply NC in E1].
    destruct (hasl_entry _ _ _ _ _ _ _ _ L _ _ _ _ HB) as [E2|E2]; [|now apply NC in E2].
    rewrite E1 in E2. destruct (eqb_spec A start) as [->|N1]; destruct (eqb_spec B start) as [->|N2]; try discriminate.
    + split; auto. apply hasl_has, (l_valid _ _ _ _ _ _ _ _ L) in HA as [HA _], HB as [HB _]. apply Hone in HA, HB. destruct pr, pr'; simpl in *; congruence.
    + injection E2 as -> ->. auto.
  - intros q A pr B pr' p t HA HB Hn. destruct (l_tr _ _ _ _ _ _ _ _ L _ _ _ _ _ HB Hn) as (n & Htr).
    destruct (hasl_entry _ _ _ _ _ _ _ _ L _ _ _ _ HA) as [E1|E1]; [|now apply NC in E1].
    destruct (has_entry _ _ _ _ _ _ _ _ L _ _ _ _ _ _ HB Hn Htr) as [E2|E2]; [|now apply NC in E2].
    apply Hl, is_terminal_term in HA. rewrite HA in E2. destruct (eqb A start); congruence.
Qed.
End Merge.

Lemma LALR1_merge : lr1s g start eof p0 sts sfk lookf -> LALR1 rules start eof -> merge_clean.
Proof.
  intros S1 [H1 H2]. split.
  - intros q q' A pr B pr' t Hal HA HB.
    destruct (Hreach q) as (qs & Xs & P); [eapply has_row, hasl_has; eauto|]. destruct (Hreach q') as (qs' & Xs' & P'); [eapply has_row, hasl_has; eauto|].
    destruct (l_valid _ _ _ _ _ _ _ _ L _ _ _ _ (hasl_has _ _ _ _ _ _ _ HA)) as [PA _].
    destruct (l_valid _ _ _ _ _ _ _ _ L _ _ _ _ (hasl_has _ _ _ _ _ _ _ HB)) as [PB _].
    destruct (hasl_rsf S1 Hlook _ _ _ _ _ _ _ P HA) as (a & w & Ra & Ea & Na). destruct (hasl_rsf S1 Hlook _ _ _ _ _ _ _ P' HB) as (b & x & Rb & Eb & Nb).
    rewrite firstn_all in Ea, Eb.
    destruct (H1 (rev Xs) A (snd pr) (fst pr) B (snd pr') (fst pr') t) as [-> E].
    + split; auto. exists a, w. rewrite Ea. split; [intros ? ? ? ?; reflexivity|]. eauto using rsf_rms, rsf_term.
    + split; auto. exists b, x. rewrite <- Eb. split; [|eauto using rsf_rms, rsf_term].
      eapply alike_same; rewrite ?rev_involutive; eauto.
    + split; auto. rewrite <- E in PB. pose proof (prod_at_fun _ _ _ _ _ PA PB). destruct pr, pr'; simpl in *; congruence.
  - intros q A pr B pr' p t HA HB Hn. destruct (Hreach q) as (qs & Xs & P); [eapply has_row, hasl_has; eauto|].
    destruct (l_valid _ _ _ _ _ _ _ _ L _ _ _ _ (hasl_has _ _ _ _ _ _ _ HA)) as [PA _].
    destruct (hasl_rsf S1 Hlook _ _ _ _ _ _ _ P HA) as (a & w & Ra & Ea & Na). rewrite firstn_all in Ea.
    pose proof (has_valid_after _ _ _ _ _ _ P HB) as VB. rewrite (skipn_nth_cons _ _ _ Hn) in VB.
    eapply (H2 (rev Xs) A (snd pr) (fst pr)); eauto.
    split; auto. exists a, w. rewrite Ea. split; [intros ? ? ? ?; reflexivity|]. eauto using rsf_rms, rsf_term.
Qed.

Lemma merge_clean_clean : merge_clean -> conflicts acts = [].
Proof.
  intros [M1 M2]. apply (no_conflict_clean _ _ _ _ _ _ _ _ L). intros q t Hc.
  destruct (conflict_items _ _ Hc) as (qs & Xs & P & Ht & [(A & pr & B & pr' & HA & HB & N)|(A & pr & B & pr' & p & HA & HB & Hn)]).
  - destruct (M1 q q A pr B pr' t) as [-> ->]; auto. intros ? ? ?. reflexivity.
  - eauto.
Qed.
End Conf.
End Auto.
