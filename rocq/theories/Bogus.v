(** Runs on arbitrary tokens, also ones whose type is a nonterminal, for tables whose
    reduction lookaheads are terminals (C21). *)
From Coq Require Import List Bool Arith Lia.
From Verif Require Import BTree Model Base Spec SpecP GrammarP FirstFollow Closure ActTab LR Sound.
Import ListNotations.

Section Bogus.
Context {T : Type} {OT : Ord T}.
Variables (g : grammar T) (start eof : T) (p0 : production T).
Variable sts : list (state T).
Variable sfk : state T -> option nat.
Variable lookf : position T -> res (bset T).
Variable acts : acttable T.
Notation rules := (g_rules g).
Notation lr0 := (lr0 g start eof p0 sts sfk lookf acts).
Hypothesis L : lr0.
Hypothesis Heof : term rules eof.
Hypothesis Hterm : forall q A pr x, hasl sts lookf q A pr (length (fst pr)) x -> term rules x.
Context {M : Type}.
Variable maps : reductmap T M.
Hypothesis Hcov : covers rules maps.
Notation sinv := (sinv eof sts sfk acts maps).

(** a configuration stuck in front of a nonterminal token: only gotos are left *)
Definition ghost (d : dfa T M) : Prop :=
  d_table d = acts /\ d_top d < length sts /\ d_eof d = eof /\ exists tok rest, d_buffer d = tok :: rest /\ nonterm rules (tk_ty tok).

Definition inv (d : dfa T M) : Prop := (sinv d /\ term rules (lookahead d)) \/ ghost d.

Lemma sinv_inv d : sinv d -> inv d.
Proof.
  intros H. unfold inv, ghost, lookahead. destruct (d_buffer d) as [|tok rest] eqn:Eb.
  - left. split; auto. now rewrite (si_eof _ _ _ _ _ _ H).
  - destruct (is_terminal g (tk_ty tok)) eqn:E.
    + left. split; auto. now apply is_terminal_term.
    + right. split; [apply (si_table _ _ _ _ _ _ H)|]. split; [|split; [apply (si_eof _ _ _ _ _ _ H)|]].
      * destruct (path_top _ _ _ _ _ _ _ _ L _ _ (si_path _ _ _ _ _ _ H)) as (q & qs & Eq & Hq).
        pose proof (si_top _ _ _ _ _ _ H) as Ht. rewrite Eq in Ht. injection Ht as <-. auto.
      * exists tok, rest. split; auto. now apply is_terminal_nonterm.
Qed.

Lemma ghost_step d : ghost d -> exists o, forall n, travel (S n) d (lookahead d) = Val o /\
  (fst o = d /\ (exists es, snd o = Err (UnexpectedToken (lookahead d) es) /\ ~ In (lookahead d) es /\ sorted es) \/
   fst o = d /\ (exists a b, snd o = Err (ConflictErr a b) /\ entry acts (d_top d) (lookahead d) = Some (Conflict a b)) \/
   snd o = Ok /\ ghost (fst o) /\ d_finished (fst o) = d_finished d /\ d_buffer (fst o) = d_buffer d).
Proof.
  intros (Et & Hq & Ee & tok & rest & Eb & Hn).
  assert (El : lookahead d = tk_ty tok) by (unfold lookahead; now rewrite Eb).
  apply nth_error_Some in Hq. destruct (nth_error sts (d_top d)) as [row|] eqn:Er; [|congruence].
  destruct (row_spec _ _ _ _ _ _ _ _ L _ _ Er) as (m & Em & Hok).
  assert (En : entry acts (d_top d) (lookahead d) = bm_get (lookahead d) m) by (unfold entry; now rewrite Em).
  destruct (bm_get (lookahead d) m) as [[n|n|A pr| |a b]|] eqn:E.
  - apply (entry_shift _ _ _ _ _ _ _ _ L) in En as [H _]. rewrite El in H. contradiction.
  - exists (dfa_goto d n). intros k. cbn [travel]. rewrite Et, Em, E. split; auto. right. right. split; auto. split; auto.
    split; [exact Et|]. apply (entry_goto _ _ _ _ _ _ _ _ L) in En as [_ H]. split; [exact (l_len _ _ _ _ _ _ _ _ L _ _ _ H)|].
    split; [exact Ee|]. exists tok, rest. split; [exact Eb|exact Hn].
  - apply (entry_reduce _ _ _ _ _ _ _ _ L) in En as [_ H]. apply Hterm in H. rewrite El in H. contradiction.
  - apply (entry_acc _ _ _ _ _ _ _ _ L) in En as (pr & H). apply Hterm in H. rewrite El in H. contradiction.
  - exists (d, Err (ConflictErr a b)). intros k. cbn [travel]. rewrite Et, Em, E. split; auto. right. left. split; auto. exists a, b. split; auto.
  - exists (d, Err (UnexpectedToken (lookahead d) (bm_keys m))). intros k. cbn [travel]. rewrite Et, Em, E. split; auto. left. split; auto.
    eexists. split; [reflexivity|]. split; [now apply bm_get_none|]. apply Hok.
Qed.

Lemma ghost_stepsto d d' o : ghost d -> stepsto d (d', o) ->
  (d' = d /\ (exists es, o = Err (UnexpectedToken (lookahead d) es) /\ ~ In (lookahead d) es /\ sorted es)) \/
  (d' = d /\ exists a b, o = Err (ConflictErr a b) /\ entry acts (d_top d) (lookahead d) = Some (Conflict a b)) \/
  (o = Ok /\ ghost d').
Proof.
  intros H ([|n] & E); [discriminate|]. destruct (ghost_step d H) as (o' & Ho). destruct (Ho n) as [E' Hc].
  rewrite E in E'. injection E' as <-. cbn [fst snd] in *. intuition auto.
Qed.

Definition fine (d : dfa T M) (o : outcome T) : Prop :=
  match o with
  | Ok => True
  | Err e => match e with
    | MissingPreviousState | StateNotSpecified => False
    | UnexpectedEof => d_buffer d = [] /\ exists A i rhs, prod_at rules A i rhs /\ In eof rhs
    | UnexpectedToken t es => t = lookahead d /\ ~ In t es /\ sorted es
    | IncompleteExec => d_buffer d <> []
    | ConflictErr a b => exists q x, entry acts q x = Some (Conflict a b)
    end
  end.

Lemma inv_step d d' o : inv d -> stepsto d (d', o) -> fine d' o /\ (o = Ok -> inv d').
Proof.
  intros [[Hs Ht]|Hg] S.
  - pose proof (step_inv _ _ _ _ _ _ _ _ L maps _ _ _ Hs S) as SR. split.
    + destruct SR; simpl; auto.
      * split; auto. apply (entry_shift _ _ _ _ _ _ _ _ L) in H0 as (_ & row & [A pr p l] & H1 & H2 & H3 & _).
        rewrite ptop_nth in H3. exists A, (snd pr), (fst pr). split.
        -- eapply (l_valid _ _ _ _ _ _ _ _ L). exists row, l. eauto.
        -- eapply nth_error_In; eauto.
      * eauto.
      * split; auto. split; [now apply bm_get_none|]. apply (row_spec' _ _ _ _ _ _ _ _ L) in H as (row & _ & Hok). apply Hok.
      * eauto.
    + intros ->. apply sinv_inv. eapply step_sinv; eauto.
  - apply ghost_stepsto in S as [(-> & es & -> & H1 & H2)|[(-> & a & b & -> & H)|(-> & H)]]; auto; simpl.
    + split; auto. discriminate.
    + split; [eauto|discriminate].
    + split; auto. intros _. now right.
Qed.

Lemma inv_no_panic fuel d p : inv d -> dfa_start fuel d <> Panic p.
Proof.
  revert d. induction fuel as [|n IH]; intros d Hi; simpl; [discriminate|].
  destruct (d_finished d) eqn:Ef; [discriminate|].
  destruct (travel n d (lookahead d)) as [[d1 o1]|p'|] eqn:E; simpl; try discriminate.
  - destruct (inv_step d d1 o1) as [_ H]; auto; [now exists n|]. destruct o1; [|discriminate]. auto.
  - exfalso. assert (exists r, stepsto d r) as ([d' o] & f & S).
    { destruct Hi as [[Hs _]|Hg].
      - destruct (step_total _ _ _ _ _ _ _ _ L maps d Hcov Hs) as (d' & o & S & _). eauto.
      - destruct (ghost_step d Hg) as (o & Ho). exists o, 1. apply Ho. }
    pose proof (travel_mono' f d (lookahead d)) as M1. pose proof (travel_mono' n d (lookahead d)) as M2.
    rewrite E in M2. rewrite S in M1.
    assert (travel (max f n) d (lookahead d) = Val (d', o)) as E1 by (apply M1; [discriminate|lia]).
    assert (travel (max f n) d (lookahead d) = Panic p') as E2 by (apply M2; [discriminate|lia]). congruence.
Qed.

Lemma inv_fine d r : runs d r -> inv d -> fine (fst r) (snd r).
Proof.
  revert d r. refine (runs_ind (fun d r => _) _ _ _); [intros d Ef|intros d d1 e Ef S|intros d d1 r Ef S R IH]; intros Hi.
  - exact I.
  - exact (proj1 (inv_step _ _ _ Hi S)).
  - apply IH. exact (proj2 (inv_step _ _ _ Hi S) eq_refl).
Qed.

Lemma inv_new input : inv (dfa_new input acts maps eof).
Proof. apply sinv_inv. apply dfa_new_sinv. Qed.
End Bogus.
