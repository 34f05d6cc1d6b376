(** What the consumed input says about the grammar (C22, C23, C37, C24), and
    termination of runs (C19, C20). *)
From Coq Require Import List Bool Arith Lia.
From Verif Require Import BTree Model Base Spec SpecP GrammarP FirstFollow Closure ActTab LR Sound CanonLR Complete Locality.
Import ListNotations.

Section Prefix.
Context {T : Type} {OT : Ord T}.
Variables (g : grammar T) (start eof : T) (p0 : production T).
Variable sts : list (state T).
Variable sfk : state T -> option nat.
Variable lookf : position T -> res (bset T).
Variable acts : acttable T.
Notation rules := (g_rules g).
Notation lr0 := (lr0 g start eof p0 sts sfk lookf acts).
Notation has := (has sts).
Notation hasl := (hasl sts lookf).
Notation tr := (tr sts sfk).
Notation path := (path sts sfk).
Notation just := (just g start p0 sts).
Notation justl := (justl g start eof p0 sts lookf).
Hypothesis L : lr0.

(** ** item validity *)
(** the symbols on the stack spell [gamma] followed by the part of the item before its dot,
    and [start] derives [gamma A delta] *)
Definition valid_item (Xs : list T) (A : T) (pr : production T) (p : nat) : Prop :=
  exists gamma delta, derives rules [start] (gamma ++ A :: delta) /\ rev Xs = gamma ++ firstn p (fst pr).

Lemma just_valid q qs Xs A pr p : path (q :: qs) Xs -> just q A pr p -> valid_item Xs A pr p.
Proof.
  remember (length Xs) as n eqn:En. assert (Hn : length Xs <= n) by lia. clear En. revert q qs Xs A pr p Hn.
  induction n as [n IHn] using (well_founded_induction lt_wf). intros q qs Xs A pr p Hlen Hp J.
  induction J as [|q A pr p Hh|q A pr p B i rhs J IHJ Hn Hpr].
  - exists [], []. split; [constructor|]. assert (Xs = []) as ->.
    { apply (path_zero _ _ _ _ _ _ _ _ L _ _ 0) in Hp; auto. now destruct Xs. }
    reflexivity.
  - inversion Hp as [|q1 qs1 X Xs1 n1 Hp1 Ht]; subst.
    + apply (l_zero _ _ _ _ _ _ _ _ L) in Hh. discriminate.
    + destruct (l_back _ _ _ _ _ _ _ _ L _ _ _ _ _ _ Ht Hh) as [Hh1 Hx].
      simpl in Hlen. destruct (IHn (length Xs1)) with (q := q1) (qs := qs1) (Xs := Xs1) (A := A) (pr := pr) (p := p)
        as (gamma & delta & H1 & H2); auto; try lia.
      { now apply (l_just _ _ _ _ _ _ _ _ L). }
      exists gamma, delta. split; auto. simpl. rewrite H2, <- app_assoc. f_equal.
      symmetry. now apply firstn_S_nth.
  - destruct (IHJ Hp) as (gamma & delta & H1 & H2).
    exists (gamma ++ firstn p (fst pr)), (skipn (S p) (fst pr) ++ delta). split.
    + eapply derives_trans; [exact H1|].
      assert (prod_at rules A (snd pr) (fst pr)) as HA by (apply (just_has _ _ _ _ _ _ _ _ L) in J; eapply (l_valid _ _ _ _ _ _ _ _ L); eauto).
      replace ((gamma ++ firstn p (fst pr)) ++ B :: skipn (S p) (fst pr) ++ delta) with (gamma ++ fst pr ++ delta).
      * change (A :: delta) with ([A] ++ delta). apply derives_ctx. eapply derives_prod; eauto.
      * rewrite <- app_assoc. f_equal. rewrite <- (firstn_skipn p (fst pr)) at 1. rewrite <- app_assoc. f_equal.
        now rewrite (skipn_nth_cons _ _ _ Hn).
    + simpl. now rewrite app_nil_r.
Qed.

Lemma has_valid q qs Xs A pr p : path (q :: qs) Xs -> has q A pr p -> valid_item Xs A pr p.
Proof. intros Hp Hh. eapply just_valid; eauto. now apply (l_just _ _ _ _ _ _ _ _ L). Qed.

Lemma path_has q qs Xs : path (q :: qs) Xs -> exists A pr p, has q A pr p.
Proof.
  intros Hp. inversion Hp as [|q1 qs1 X Xs1 n1 Hp1 Ht]; subst.
  - exists start, p0, 0. apply (l_start _ _ _ _ _ _ _ _ L).
  - pose proof Ht as (row & [A pr p l] & H1 & H2 & H3 & H4). rewrite ptop_nth in H3.
    exists A, pr, (S p). eapply (l_fwd _ _ _ _ _ _ _ _ L); eauto. exists row, l; auto.
Qed.

(** the stack is the beginning of a sentential form *)
Lemma path_viable qs Xs : path qs Xs -> exists v, derives rules [start] (rev Xs ++ v).
Proof.
  intros Hp. destruct (path_top _ _ _ _ _ _ _ _ L _ _ Hp) as (q & qs' & -> & _).
  destruct (path_has _ _ _ Hp) as (A & pr & p & Hh). destruct (has_valid _ _ _ _ _ _ Hp Hh) as (gamma & delta & H1 & H2).
  exists (skipn p (fst pr) ++ delta). eapply derives_trans; [exact H1|]. rewrite H2, <- app_assoc, (app_assoc (firstn p _)), firstn_skipn.
  change (A :: delta) with ([A] ++ delta). apply derives_ctx. eapply derives_prod. eapply (l_valid _ _ _ _ _ _ _ _ L); eauto.
Qed.

Lemma productive_str v : productive rules -> exists w, derives rules v w /\ Forall (term rules) w.
Proof.
  intros P. induction v as [|X v (w & H1 & H2)].
  - exists []. split; constructor.
  - destruct (nonterm_dec rules X) as [HX|HX].
    + destruct (P X HX) as (wx & H3 & H4). exists (wx ++ w). split; [|now apply Forall_app].
      change (X :: v) with ([X] ++ v). now apply derives_app.
    + exists (X :: w). split; [now apply derives_cons|now constructor].
Qed.

(** ** lookahead validity *)
Definition valid_look (Xs : list T) (A : T) (pr : production T) (p : nat) (t : T) : Prop :=
  exists gamma delta, derives rules [start] (gamma ++ A :: delta) /\ rev Xs = gamma ++ firstn p (fst pr) /\
    ((t = eof /\ delta = []) \/ exists Y delta', delta = Y :: delta' /\ first_spec rules Y t).

Hypothesis S1 : lr1s g start eof p0 sts sfk lookf.

Lemma justl_has q A pr p t : justl q A pr p t -> has q A pr p.
Proof.
  induction 1 as [|q A pr p t H|q A pr p B Y i rhs t J Hn Hy Hpr Hf|q A pr p B i rhs t J IH Hn Hy Hpr].
  - apply (l_start _ _ _ _ _ _ _ _ L).
  - eapply hasl_has; eauto.
  - apply (just_has _ _ _ _ _ _ _ _ L) in J. eapply (l_clo _ _ _ _ _ _ _ _ L); eauto.
  - eapply (l_clo _ _ _ _ _ _ _ _ L); eauto.
Qed.

Lemma justl_valid q qs Xs A pr p t : term rules t -> path (q :: qs) Xs -> justl q A pr p t -> valid_look Xs A pr p t.
Proof.
  intros Hter.
  remember (length Xs) as n eqn:En. assert (Hn : length Xs <= n) by lia. clear En. revert q qs Xs A pr p Hn.
  induction n as [n IHn] using (well_founded_induction lt_wf). intros q qs Xs A pr p Hlen Hp J. revert Hp Hter.
  induction J as [|q A pr p t H|q A pr p B Y i rhs t J Hn Hy Hpr Hf|q A pr p B i rhs t J IHJ Hn Hy Hpr]; intros Hp Hter.
  - exists [], []. split; [constructor|]. assert (Xs = []) as ->.
    { apply (path_zero _ _ _ _ _ _ _ _ L _ _ 0) in Hp; auto. now destruct Xs. }
    split; auto.
  - inversion Hp as [|q1 qs1 X Xs1 n1 Hp1 Ht]; subst.
    + apply hasl_has, (l_zero _ _ _ _ _ _ _ _ L) in H. discriminate.
    + destruct (l_back _ _ _ _ _ _ _ _ L _ _ _ _ _ _ Ht (hasl_has _ _ _ _ _ _ _ H)) as [_ Hx].
      pose proof (s_back _ _ _ _ _ _ _ S1 _ _ _ _ _ _ _ Ht H) as Hl.
      simpl in Hlen. destruct (IHn (length Xs1)) with (q := q1) (qs := qs1) (Xs := Xs1) (A := A) (pr := pr) (p := p)
        as (gamma & delta & H1 & H2 & H3); auto; try lia.
      { now apply (s_just _ _ _ _ _ _ _ S1). }
      exists gamma, delta. split; auto. split; auto. simpl. rewrite H2, <- app_assoc. f_equal.
      symmetry. now apply firstn_S_nth.
  - destruct (just_valid _ _ _ _ _ _ Hp J) as (gamma & delta & H1 & H2).
    exists (gamma ++ firstn p (fst pr)), (skipn (S p) (fst pr) ++ delta). split; [|split].
    + eapply derives_trans; [exact H1|].
      assert (prod_at rules A (snd pr) (fst pr)) as HA by (apply (just_has _ _ _ _ _ _ _ _ L) in J; eapply (l_valid _ _ _ _ _ _ _ _ L); eauto).
      replace ((gamma ++ firstn p (fst pr)) ++ B :: skipn (S p) (fst pr) ++ delta) with (gamma ++ fst pr ++ delta).
      * change (A :: delta) with ([A] ++ delta). apply derives_ctx. eapply derives_prod; eauto.
      * rewrite <- app_assoc. f_equal. rewrite <- (firstn_skipn p (fst pr)) at 1. rewrite <- app_assoc. f_equal.
        now rewrite (skipn_nth_cons _ _ _ Hn).
    + simpl. now rewrite app_nil_r.
    + right. rewrite (skipn_nth_cons _ _ _ Hy). simpl. eauto.
  - destruct IHJ as (gamma & delta & H1 & H2 & H3); auto.
    assert (skipn (S p) (fst pr) = []) as Es by (apply skipn_all2; now apply nth_error_None).
    exists (gamma ++ firstn p (fst pr)), delta. split; [|split; auto].
    + eapply derives_trans; [exact H1|].
      assert (prod_at rules A (snd pr) (fst pr)) as HA by (apply justl_has in J; eapply (l_valid _ _ _ _ _ _ _ _ L); eauto).
      replace ((gamma ++ firstn p (fst pr)) ++ B :: delta) with (gamma ++ fst pr ++ delta).
      * change (A :: delta) with ([A] ++ delta). apply derives_ctx. eapply derives_prod; eauto.
      * rewrite <- app_assoc. f_equal. rewrite <- (firstn_skipn p (fst pr)) at 1. rewrite <- app_assoc. f_equal.
        now rewrite (skipn_nth_cons _ _ _ Hn), Es.
    + simpl. now rewrite app_nil_r.
Qed.

(** with a complete item whose lookahead is [t] on top, the stack can be followed by [t] *)
Lemma complete_look q qs Xs A pr t : term rules t -> path (q :: qs) Xs -> hasl q A pr (length (fst pr)) t ->
  (t = eof /\ derives rules [start] (rev Xs)) \/ exists v, derives rules [start] (rev Xs ++ t :: v).
Proof.
  intros Hter Hp Hh. assert (prod_at rules A (snd pr) (fst pr)) as HA by (apply hasl_has in Hh; eapply (l_valid _ _ _ _ _ _ _ _ L); eauto).
  apply (s_just _ _ _ _ _ _ _ S1) in Hh; auto.
  destruct (justl_valid _ _ _ _ _ _ _ Hter Hp Hh) as (gamma & delta & H1 & H2 & H3). rewrite firstn_all in H2.
  assert (derives rules [start] (rev Xs ++ delta)) as Hd.
  { eapply derives_trans; [exact H1|]. rewrite H2, <- app_assoc. change (A :: delta) with ([A] ++ delta). apply derives_ctx. eapply derives_prod; eauto. }
  destruct H3 as [[-> ->]|(Y & delta' & -> & Hy & v & Hv)].
  - rewrite app_nil_r in Hd. auto.
  - right. exists (v ++ delta'). eapply derives_trans; [exact Hd|].
    change (Y :: delta') with ([Y] ++ delta'). change (t :: v ++ delta') with ((t :: v) ++ delta'). now apply derives_ctx.
Qed.
End Prefix.
