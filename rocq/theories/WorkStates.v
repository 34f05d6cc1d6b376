(** How many states there are (C128) *)
From Coq Require Import List Bool Arith Lia.
From Verif Require Import BTree Model Base Spec SpecP GrammarP Interface StatesSpec StatesP LR Wrap Final Valid Dead Cores.
Import ListNotations.

Fixpoint codes (n : nat) : list (list bool) :=
  match n with 0 => [[]] | S n => map (cons true) (codes n) ++ map (cons false) (codes n) end.
Lemma codes_length n : length (codes n) = 2 ^ n.
Proof. induction n; cbn [codes Nat.pow]; auto. rewrite app_length, !map_length. lia. Qed.
Lemma codes_in l : In l (codes (length l)).
Proof. induction l as [|[] l IH]; cbn [codes length]; [now left|..]; apply in_or_app; [left|right]; now apply in_map. Qed.

Section States.
Context {T : Type} {OT : Ord T}.
Variables (dbg : bool) (start eof : T) (rules : rulemap T) (g : grammar T).
Hypothesis W : wf_rules rules.
Hypothesis Hg : grammar_new dbg start rules eof = Val g.

(** a state is determined by its items with the dot past the beginning *)
Lemma kernel_core k t q q' row row' : makes k dbg g t -> nth_error (t_states t) q = Some row -> nth_error (t_states t) q' = Some row' ->
  (forall A pr p, (exists l, In (mkPos A pr (S p) l) row) <-> (exists l, In (mkPos A pr (S p) l) row')) -> same_core row row'.
Proof.
  intros Hm. pose proof Hm as Hm'. destruct (Wp0 _ _ _ _ _ W Hg) as (p0 & Hp0 & _). destruct (makes_made _ _ _ _ _ W Hg _ _ _ Hm Hp0) as (sfk & lookf & X).
  pose proof (m_lr0 _ _ _ _ _ _ _ _ _ _ X) as L. destruct (makes_states _ _ _ _ _ W Hg _ _ Hm') as (_ & HR & _).
  assert (Z : forall q, q <> 0 -> q < length (t_states t) -> exists A pr p, has (t_states t) q A pr (S p)).
  { intros n Nn Ln. destruct (HR n Ln) as (qs & xs & P). inversion P as [|m ms x ys n' P1 Mv]; subst; [now destruct Nn|].
    apply (moves_tr _ _ _ _ _ _ _ _ _ _ L) in Mv. pose proof Mv as (r & pos & E1 & E2 & E3 & _). destruct pos as [A pr p l].
    exists A, pr, p. apply (l_fwd _ _ _ _ _ _ _ _ L m x n A pr p Mv); [exists r, l; auto|]. unfold ptop, peek in E3. rewrite Nat.add_0_r in E3. exact E3. }
  assert (Gen : forall q q' row row', nth_error (t_states t) q = Some row -> nth_error (t_states t) q' = Some row' ->
    (forall A pr p, (exists l, In (mkPos A pr (S p) l) row) <-> (exists l, In (mkPos A pr (S p) l) row')) ->
    forall A pr p, (exists l, In (mkPos A pr p l) row) -> exists l, In (mkPos A pr p l) row').
  { clear q q' row row'. intros q q' row row' E E' HK A pr p (l & Hl). assert (has (t_states t) q A pr p) as Hh by (exists row, l; auto).
    apply (l_just _ _ _ _ _ _ _ _ L) in Hh. clear l Hl.
    assert (K : has (t_states t) q' A pr p); [|destruct K as (r & l & K1 & K2); exists l; congruence].
    revert E HK. induction Hh as [|q A pr p Hh|q A pr p B i rhs J IH Hn HB]; intros E HK.
    - destruct (Nat.eq_dec q' 0) as [->|N]; [apply (l_start _ _ _ _ _ _ _ _ L)|]. exfalso.
      destruct (Z q' N) as (A & pr & p & r & l & K1 & K2); [apply nth_error_Some; congruence|]. assert (r = row') as -> by congruence.
      destruct (proj2 (HK A pr p) (ex_intro _ l K2)) as (l' & K3). assert (has (t_states t) 0 A pr (S p)) as K4 by (exists row, l'; auto).
      apply (l_zero _ _ _ _ _ _ _ _ L) in K4. discriminate.
    - destruct Hh as (r & l & K1 & K2). assert (r = row) as -> by congruence. destruct (proj1 (HK A pr p) (ex_intro _ l K2)) as (l' & K3). exists row', l'. auto.
    - eapply (l_clo _ _ _ _ _ _ _ _ L); eauto. }
  intros E E' HK A pr p. split; [eapply (Gen q q'); eauto|]. eapply (Gen q' q); eauto. intros. symmetry. apply HK.
Qed.

Definition mark (row : state T) (u : T * nat * nat) : bool :=
  existsb (fun pos => eqb (p_rule pos) (fst (fst u)) && Nat.eqb (snd (p_seq pos)) (snd (fst u)) && Nat.eqb (p_point pos) (snd u)) row.
Lemma mark_iff row A i p : mark row (A, i, p) = true <-> exists rhs l, In (mkPos A (rhs, i) p l) row.
Proof.
  unfold mark. rewrite existsb_exists. cbn [fst snd]. split.
  - intros ([A' [rhs i'] p' l] & H & E). cbn [p_rule p_seq p_point snd] in E. apply andb_true_iff in E as (E & E3). apply andb_true_iff in E as (E1 & E2).
    apply eqb_eq in E1. apply Nat.eqb_eq in E2, E3. subst. eauto.
  - intros (rhs & l & H). eexists. split; [exact H|]. cbn [p_rule p_seq p_point snd]. now rewrite eqb_refl, !Nat.eqb_refl.
Qed.

Lemma lalr_count t : makes LALR dbg g t -> forall U, (forall A i rhs p, prod_at rules A i rhs -> 0 < p <= length rhs -> In (A, i, p) U) ->
  length (t_states t) <= 2 ^ length U.
Proof.
  intros Hm U HU. destruct (Wp0 _ _ _ _ _ W Hg) as (p0 & Hp0 & _). destruct (makes_made _ _ _ _ _ W Hg _ _ _ Hm Hp0) as (sfk & lookf & X).
  pose proof (m_lr0 _ _ _ _ _ _ _ _ _ _ X) as L. pose proof (Wr _ _ _ _ _ Hg) as Er.
  rewrite <- codes_length, <- (map_length (fun row => map (mark row) U) (t_states t)). apply NoDup_incl_length.
  - apply NoDup_nth_error. intros i j Li E. rewrite map_length in Li. rewrite !nth_error_map in E.
    destruct (nth_error (t_states t) i) as [row|] eqn:Ei; [|apply nth_error_None in Ei; lia]. destruct (nth_error (t_states t) j) as [row'|] eqn:Ej; [|discriminate].
    cbn [option_map] in E. injection E as E.
    assert (forall u, In u U -> mark row u = mark row' u) as Eu.
    { clear - E. induction U as [|v U IH]; [intros u []|]. cbn [map] in E. injection E as E0 E1. intros u [<-|Hu]; auto. }
    eapply makes_cores; eauto. eapply kernel_core; eauto.
    assert (Gen : forall q q' row row', nth_error (t_states t) q = Some row -> nth_error (t_states t) q' = Some row' -> (forall u, In u U -> mark row u = mark row' u) ->
      forall A pr p, (exists l, In (mkPos A pr (S p) l) row) -> exists l, In (mkPos A pr (S p) l) row').
    { clear - L HU Er. intros q q' row row' E E' Eu A [rhs i] p (l & Hl).
      destruct (l_valid _ _ _ _ _ _ _ _ L q A (rhs, i) (S p)) as (V1 & V2); [exists row, l; auto|]. cbn [fst snd] in *. rewrite Er in V1.
      assert (mark row' (A, i, S p) = true) as Hk by (rewrite <- Eu; [apply mark_iff; eauto|eapply HU; [exact V1|lia]]).
      apply mark_iff in Hk as (rhs' & l' & Hk). destruct (l_valid _ _ _ _ _ _ _ _ L q' A (rhs', i) (S p)) as (V3 & _); [exists row', l'; auto|].
      cbn [fst snd] in V3. rewrite Er in V3. pose proof (prod_at_fun' _ _ _ _ _ V1 V3) as ->. eauto. }
    intros A pr p. split; [eapply (Gen i j); eauto|eapply (Gen j i); eauto]. intros u Hu. symmetry. auto.
  - intros c Hc. apply in_map_iff in Hc as (row & <- & _). rewrite <- (map_length (mark row) U). apply codes_in.
Qed.

Lemma states_count k t : k <> CLR -> k = LALR \/ start_fresh rules start -> makes k dbg g t ->
  forall U, (forall A i rhs p, prod_at rules A i rhs -> 0 < p <= length rhs -> In (A, i, p) U) -> length (t_states t) <= 2 ^ length U.
Proof.
  intros Nk Hk Hm. destruct k; [|now destruct Nk|now apply lalr_count]. destruct Hk as [|Hf]; [discriminate|].
  destruct (makes_tabler _ _ _ _ _ W Hg _ _ Hm) as (tb & Hb & _). destruct (with_table_total _ _ _ _ _ W Hg LALR _ Hb) as (_ & tl & _ & Hl).
  destruct (lalr_slr_states _ _ _ _ _ W Hg _ _ Hl Hm Hf) as (<- & _). now apply lalr_count.
Qed.
End States.
