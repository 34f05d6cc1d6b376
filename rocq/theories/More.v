(** Further results: soundness of Clr without a fresh start symbol (C10), soundness with
    partial reductor maps (C10-C12). *)
From Coq Require Import List Bool Arith Lia.
From Verif Require Import BTree Model Base Spec SpecP GrammarP FirstFollow Closure Canon ActTab LR Sound CanonLR Complete Locality Prefix Halt RunFacts Interface Wrap.
Import ListNotations.

Section More.
Context {T : Type} {OT : Ord T}.
Variables (g : grammar T) (start eof : T) (p0 : production T).
Variable sts : list (state T).
Variable sfk : state T -> option nat.
Variable lookf : position T -> res (bset T).
Variable acts : acttable T.
Notation rules := (g_rules g).
Notation lr0 := (lr0 g start eof p0 sts sfk lookf acts).
Hypothesis L : lr0.
Hypothesis Heof : term rules eof.
Hypothesis S1 : lr1s g start eof p0 sts sfk lookf.
Hypothesis Hno : forall A i rhs, prod_at rules A i rhs -> ~ In eof rhs.
Hypothesis Hstart : nonterm rules start.

Context {M : Type}.
Variable maps : reductmap T M.

Notation sinv := (sinv eof sts sfk acts maps).
Notation vinv := (vinv g maps).

Lemma no_eof u v : derives rules u v -> ~ In eof u -> ~ In eof v.
Proof.
  induction 1 as [|u v w [a A b i rhs Hp] H IH]; auto. intros N. apply IH. intros Hin. apply N.
  rewrite !in_app_iff in *. destruct Hin as [Hin|[Hin|Hin]]; auto.
  - exfalso. eapply Hno; eauto.
  - right. now right.
Qed.

Lemma run_sound_eof input d' : runs (dfa_new input acts maps eof) (d', Ok) -> sentence rules start (map tk_ty input).
Proof.
  assert (G : forall d r, runs d r -> sinv d -> vinv input d ->
     (d_finished d = true -> d_buffer d = [] /\ derives rules [start] (rev (map tk_ty (d_items d)))) ->
     snd r = Ok -> sentence rules start (map tk_ty input)).
  { refine (runs_ind (fun d r => _) _ _ _); [intros d Ef|intros d d1 e Ef S|intros d d1 r Ef S R IH]; intros Hs Hv Hd Eo.
    - destruct (Hd Ef) as [Eb Ei]. destruct Hv as (used & E & Hv). rewrite Eb, app_nil_r in E. subst used.
      apply (proj2 (evals_derives rules maps)) in Hv as [Hv Ht]. split; auto. eapply derives_trans; eauto.
    - simpl in Eo. discriminate.
    - destruct (nonterm_dec rules (lookahead d)) as [Hn|Ht].
      + exfalso. assert (runs d r) as R' by (eapply runs_step; eauto).
        destruct (d_buffer d) as [|tok rest] eqn:Eb.
        * unfold lookahead in Hn. rewrite Eb in Hn. rewrite (si_eof _ _ _ _ _ _ Hs) in Hn. contradiction.
        * apply (nonterm_never_ok _ _ _ _ _ _ _ _ L _ _ R'); auto. { apply (si_table _ _ _ _ _ _ Hs). }
          exists tok, rest. split; auto. unfold lookahead in Hn. now rewrite Eb in Hn.
      + pose proof (step_inv _ _ _ _ _ _ _ _ L maps _ _ _ Hs S) as SR.
        apply IH; auto.
        * eapply step_sinv; eauto.
        * eapply (step_vinv _ _ _ _ _ _ _ _ L maps); eauto.
        * intros Ef1. inversion SR as [tok rest n Eb E|n Eb E|n E|E Eb|E Eb|a b E|m Em E|A pr q n fs f E Efs Ef' Eq Et Eg|A pr q a b fs f E Efs Ef' Eq Eg];
            subst; simpl in Ef1; try congruence. simpl.
          split; auto. apply (entry_acc _ _ _ _ _ _ _ _ L) in E as (pr & Hh).
          assert (lookahead d = eof) as El by (unfold lookahead; rewrite Eb; apply (si_eof _ _ _ _ _ _ Hs)). rewrite El in Hh.
          destruct Hs as [St Sp Stop Sm Se]. destruct (d_states d) as [|q0 qs] eqn:Eqs; [discriminate|].
          simpl in Stop. injection Stop as ->.
          destruct (complete_look _ _ _ _ _ _ _ _ L S1 _ _ _ _ _ _ Heof Sp Hh) as [[_ H]|(v & H)]; auto.
          exfalso. apply (no_eof _ _ H).
          -- intros [->|[]]. contradiction.
          -- apply in_app_iff. right. now left. }
  intros R. eapply G in R; eauto.
  - apply dfa_new_sinv.
  - exists []. simpl. split; auto. constructor.
  - simpl. discriminate.
Qed.
End More.

Section Wrap.
Context {T : Type} {OT : Ord T}.
Variables (dbg : bool) (start eof : T) (rules : rulemap T) (g : grammar T).
Hypothesis W : wf_rules rules.
Hypothesis Hg : grammar_new dbg start rules eof = Val g.

Lemma clr_sound_eof {M} (maps : reductmap T M) t input m : makes CLR dbg g t -> term rules eof ->
  (forall A i rhs, prod_at rules A i rhs -> ~ In eof rhs) -> parses t input maps (POk m) -> sentence rules start (map tk_ty input).
Proof.
  intros Hm Heof Hno Hp. apply (parses_runs _ _ _ _ _ W Hg maps _ _ Hm) in Hp as (d' & o & R & E). destruct o; [|discriminate].
  destruct (Wp0 _ _ _ _ _ W Hg) as (p0 & Hp0 & Hp & _). destruct (makes_made _ _ _ _ _ W Hg _ _ _ Hm Hp0) as (sfk & lookf & X).
  pose proof (m_lr0 _ _ _ _ _ _ _ _ _ _ X) as L. pose proof (m_lr1s _ _ _ _ _ _ _ _ _ _ X eq_refl) as S1. rewrite <- (Wr _ _ _ _ _ Hg) in *.
  eapply (run_sound_eof _ _ _ _ _ _ _ _ L); eauto. eapply prod_nonterm; eauto.
Qed.
End Wrap.
