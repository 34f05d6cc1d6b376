(** Boolean checks that establish, for a concrete grammar or table, the hypotheses of
    the general theorems.  Used by the examples and by the bundled grammars (C38). *)
From Coq Require Import List Bool Arith Lia Relation_Operators Operators_Properties.
From Verif Require Import BTree Model Base Spec SpecP GrammarP LR Interface Mono.
Import ListNotations.

Section Check.
Context {T : Type} {OT : Ord T}.
Variable rules : rulemap T.
Hypothesis W : wf_rules rules.

(** all productions: rule name, index, right-hand side *)
Definition prods : list (T * nat * list T) :=
  flat_map (fun r => map (fun pr => (r_name r, snd pr, fst pr)) (r_prods r)) (bm_values rules).

Lemma prods_in A i rhs : In (A, i, rhs) prods <-> prod_at rules A i rhs.
Proof.
  unfold prods. rewrite in_flat_map. split.
  - intros (r & Hr & Hin). apply in_map_iff in Hin as ([u k] & [= <- <- <-] & Hin). cbn [fst snd].
    apply wf_in in Hr; auto. apply (wf_prod_in _ _ r (u, k) W); auto.
  - intros H. apply wf_prod_at in H as (r & Er & Hn); auto. exists r. assert (r_name r = A) as En by (apply W; auto). split.
    + apply wf_in; auto. congruence.
    + apply in_map_iff. exists (rhs, i). rewrite En. split; auto. eapply nth_error_In; eauto.
Qed.

Definition nonterm_b (x : T) : bool := bm_mem x rules.
Lemma nonterm_b_true x : nonterm_b x = true <-> nonterm rules x.
Proof. unfold nonterm_b, bm_mem, nonterm. destruct (bm_get x rules); split; try discriminate; eauto. intros (? & [=]). Qed.
Lemma nonterm_b_false x : nonterm_b x = false <-> term rules x.
Proof. unfold term. rewrite <- nonterm_b_true. destruct (nonterm_b x); split; congruence. Qed.

Lemma forall_prods (P : T * nat * list T -> bool) : forallb P prods = true -> forall A i rhs, prod_at rules A i rhs -> P (A, i, rhs) = true.
Proof. intros H A i rhs Hp. rewrite forallb_forall in H. apply H. now apply prods_in. Qed.

Definition mem_b (x : T) (l : list T) : bool := existsb (eqb x) l.
Lemma mem_b_in x l : mem_b x l = true <-> In x l.
Proof.
  unfold mem_b. rewrite existsb_exists. split; [intros (y & Hy & E); apply eqb_eq in E; now subst|]. intros H. exists x. split; auto. apply eqb_refl.
Qed.

Definition fresh_b (s : T) : bool := forallb (fun '(_, _, rhs) => negb (mem_b s rhs)) prods.
Lemma fresh_ok s : fresh_b s = true -> start_fresh rules s.
Proof. intros H A i rhs Hp Hin. apply (forall_prods _ H) in Hp. apply mem_b_in in Hin. rewrite Hin in Hp. discriminate. Qed.

Definition single_b (s : T) : bool := forallb (fun '(A, i, _) => negb (eqb A s) || (i =? 0)) prods.
Lemma single_ok s : single_b s = true -> single_start rules s.
Proof.
  intros H i rhs Hp. apply (forall_prods _ H) in Hp. rewrite eqb_refl in Hp. simpl in Hp. now apply Nat.eqb_eq.
Qed.

Definition noempty_b : bool := forallb (fun '(_, _, rhs) => match rhs with [] => false | _ => true end) prods.
Lemma noempty_ok : noempty_b = true -> noempty rules.
Proof. intros H A i rhs Hp ->. apply (forall_prods _ H) in Hp. discriminate. Qed.

(** *** orders given by a list of nonterminals: later means higher *)
Fixpoint rank (l : list T) (x : T) : nat :=
  match l with [] => 0 | y :: l' => if eqb x y then 0 else S (rank l' x) end.

Lemma rank_acyclic (R : T -> T -> Prop) l : (forall A B, R A B -> rank l B < rank l A) -> forall A, ~ clos_trans _ R A A.
Proof.
  intros H. assert (forall A B, clos_trans _ R A B -> rank l B < rank l A) as G.
  { induction 1; auto. lia. }
  intros A HA. apply G in HA. lia.
Qed.

Definition left_b (l : list T) : bool := forallb (fun '(A, _, rhs) =>
  match rhs with B :: _ => negb (nonterm_b B) || eqb A B || (rank l B <? rank l A) | [] => true end) prods.
Lemma left_ok l : left_b l = true -> no_left_cycle rules.
Proof.
  intros H. unfold no_left_cycle, no_right_cycle. refine (rank_acyclic _ l _). intros A B (i & v & Hp & HB & N). apply (forall_prods _ H) in Hp.
  apply nonterm_b_true in HB. rewrite HB in Hp. simpl in Hp. destruct (eqb_spec A B) as [E|_]; [congruence|]. now apply Nat.ltb_lt.
Qed.

Definition right_b (l : list T) : bool := forallb (fun '(A, _, rhs) =>
  match rev rhs with B :: _ => negb (nonterm_b B) || eqb A B || (rank l B <? rank l A) | [] => true end) prods.
Lemma right_ok l : right_b l = true -> no_right_cycle rules.
Proof.
  intros H. unfold no_left_cycle, no_right_cycle. refine (rank_acyclic _ l _). intros A B (i & v & Hp & HB & N). apply (forall_prods _ H) in Hp.
  rewrite rev_app_distr in Hp. simpl in Hp.
  apply nonterm_b_true in HB. rewrite HB in Hp. simpl in Hp. destruct (eqb_spec A B) as [E|_]; [congruence|]. now apply Nat.ltb_lt.
Qed.

Definition unit_b (l : list T) : bool := forallb (fun '(A, _, rhs) =>
  match rhs with [B] => negb (nonterm_b B) || (rank l B <? rank l A) | _ => true end) prods.
Lemma unit_ok l : unit_b l = true -> no_unit_cycle rules.
Proof.
  intros H. assert (forall A B, unit_chain rules A B -> rank l B < rank l A) as G.
  { assert (forall A i B, prod_at rules A i [B] -> nonterm rules B -> rank l B < rank l A) as G1.
    { intros A i B Hp HB. apply (forall_prods _ H) in Hp. apply nonterm_b_true in HB. rewrite HB in Hp. now apply Nat.ltb_lt. }
    induction 1 as [A i B Hp HB|A i B C Hp HB _ IH]; eauto. specialize (G1 _ _ _ Hp HB). lia. }
  intros A HA. apply G in HA. lia.
Qed.

(** every nonterminal has a production over terminals and lower nonterminals *)
Definition productive_b (l : list T) : bool := forallb (fun A =>
  existsb (fun '(B, _, rhs) => eqb A B && forallb (fun x => negb (nonterm_b x) || (rank l x <? rank l A)) rhs) prods) (bm_keys rules).
Lemma productive_ok l : productive_b l = true -> productive rules.
Proof.
  intros H. assert (G : forall n A, rank l A < n -> nonterm rules A -> exists w, derives rules [A] w /\ Forall (term rules) w).
  { induction n as [|n IH]; intros A L HA; [lia|].
    assert (In A (bm_keys rules)) as Hk.
    { destruct HA as (r & Hr). apply bm_get_in in Hr. apply in_map_iff. now exists (A, r). }
    unfold productive_b in H. rewrite forallb_forall in H. specialize (H A Hk). apply existsb_exists in H as ([[B i] rhs] & Hin & E).
    apply andb_prop in E as [E1 E2]. apply eqb_eq in E1. subst B. apply prods_in in Hin. rewrite forallb_forall in E2.
    assert (G : exists w, derives rules rhs w /\ Forall (term rules) w).
    { clear Hin. induction rhs as [|x rhs IHr].
      - exists []. split; constructor.
      - destruct IHr as (w & Hw1 & Hw2); [intros y Hy; apply E2; now right|].
        specialize (E2 x (or_introl eq_refl)). destruct (nonterm_b x) eqn:Ex.
        + simpl in E2. apply Nat.ltb_lt in E2. apply nonterm_b_true in Ex. destruct (IH x) as (w1 & H1 & H2); auto; [lia|].
          exists (w1 ++ w). split; [|apply Forall_app; auto]. change (x :: rhs) with ([x] ++ rhs). now apply derives_app.
        + apply nonterm_b_false in Ex. exists (x :: w). split; [now apply derives_cons|]. constructor; auto. }
    destruct G as (w & H1 & H2). exists w. split; auto. eapply derives_trans; eauto. eapply derives_prod; eauto. }
  intros A. apply (G (S (rank l A))). lia.
Qed.

(** every nonterminal but [s] occurs in a production of a lower one *)
Definition reachable_b (s : T) (l : list T) : bool := forallb (fun A =>
  eqb A s || existsb (fun '(B, _, rhs) => mem_b A rhs && (rank l B <? rank l A)) prods) (bm_keys rules).
Lemma reachable_ok s l : reachable_b s l = true -> reachable rules s.
Proof.
  intros H. assert (G : forall n A, rank l A < n -> nonterm rules A -> exists u v, derives rules [s] (u ++ A :: v)).
  { induction n as [|n IH]; intros A L HA; [lia|].
    assert (In A (bm_keys rules)) as Hk.
    { destruct HA as (r & Hr). apply bm_get_in in Hr. apply in_map_iff. now exists (A, r). }
    unfold reachable_b in H. rewrite forallb_forall in H. specialize (H A Hk). apply orb_prop in H as [E|H].
    - apply eqb_eq in E. subst A. exists [], []. constructor.
    - apply existsb_exists in H as ([[B i] rhs] & Hin & E). apply andb_prop in E as [E1 E2].
      apply mem_b_in in E1. apply Nat.ltb_lt in E2. apply prods_in in Hin. destruct (IH B) as (u & v & Hd); [lia|eapply prod_nonterm; eauto|].
      apply in_split in E1 as (x & y & ->). exists (u ++ x), (y ++ v). eapply derives_trans; [exact Hd|].
      pose proof (derives_ctx rules u v [B] (x ++ A :: y) (derives_prod _ _ _ _ Hin)) as H.
      rewrite <- !app_assoc in *. simpl in *. exact H. }
  intros A. apply (G (S (rank l A))). lia.
Qed.

Lemma terms_ok l : forallb (fun x => negb (nonterm_b x)) l = true -> Forall (term rules) l.
Proof.
  intros H. apply Forall_forall. intros x Hx. rewrite forallb_forall in H. apply nonterm_b_false. specialize (H x Hx).
  now destruct (nonterm_b x).
Qed.
End Check.

Section CheckTable.
Context {T : Type} {OT : Ord T}.

Fixpoint targets (a : action T) : list nat :=
  match a with Shift n => [n] | Goto n => [n] | Conflict a1 a2 => targets a1 ++ targets a2 | _ => [] end.

Lemma targets_in a n : In n (targets a) <-> inside (Shift n) a \/ inside (Goto n) a.
Proof.
  induction a as [m|m|x p| |a1 IH1 a2 IH2]; simpl; try (intuition congruence).
  rewrite in_app_iff, IH1, IH2. tauto.
Qed.

Definition carries_b (t : tabler T) : bool :=
  forallb (fun '(row, arow) =>
    forallb (fun '(x, a) =>
      forallb (fun n => match nth_error (t_states t) n with
        | None => true
        | Some row' => forallb (fun pos => match at_dot pos with
            | None => true
            | Some y => negb (eqb x y) || existsb (fun pos' =>
                eqb (p_rule pos') (p_rule pos) && eqb (p_seq pos') (p_seq pos) && (p_point pos' =? S (p_point pos)) &&
                forallb (fun z => existsb (eqb z) (p_look pos')) (p_look pos)) row'
            end) row
        end) (targets a)) arow) (combine (t_states t) (t_actions t)).

Lemma nth_combine {A B} (l : list A) (m : list B) i a b : nth_error l i = Some a -> nth_error m i = Some b -> In (a, b) (combine l m).
Proof.
  revert m i. induction l as [|x l IH]; intros [|y m] [|i]; simpl; try discriminate; intros E1 E2.
  - left. congruence.
  - right. eauto.
Qed.

Lemma carries_ok t : carries_b t = true -> carries t.
Proof.
  intros H q x n row row' pos (arow & a & E1 & E2 & E3) Hq Hn Hp Hd. unfold carries_b in H. rewrite forallb_forall in H.
  specialize (H _ (nth_combine _ _ _ _ _ Hq E1)). cbn beta iota in H. rewrite forallb_forall in H. apply bm_get_in in E2. specialize (H _ E2). cbn beta iota in H.
  rewrite forallb_forall in H. apply targets_in in E3. specialize (H _ E3). rewrite Hn in H. rewrite forallb_forall in H. specialize (H _ Hp).
  rewrite Hd, eqb_refl in H. simpl in H. apply existsb_exists in H as (pos' & Hin & H). apply andb_prop in H as [H H4]. apply andb_prop in H as [H H3].
  apply andb_prop in H as [H1 H2]. apply eqb_eq in H1. apply eqb_eq in H2. apply Nat.eqb_eq in H3. exists pos'. split; auto. split; auto. split; auto. split; auto.
  intros z Hz. rewrite forallb_forall in H4. specialize (H4 z Hz). apply existsb_exists in H4 as (z' & Hz' & E). apply eqb_eq in E. now subst.
Qed.

Definition only_b (t : tabler T) : bool :=
  forallb (fun '(_, s) => forallb (fun x => negb (bm_mem x (g_rules (t_grammar t)))) s) (t_first t ++ t_follow t).

Lemma only_ok t : only_b t = true -> only_terminals t.
Proof.
  intros H A s x Hs Hx. unfold only_b in H. rewrite forallb_forall in H.
  assert (In (A, s) (t_first t ++ t_follow t)) as Hin by (apply in_app_iff; destruct Hs as [Hs|Hs]; apply bm_get_in in Hs; auto).
  specialize (H _ Hin). cbn beta iota in H. rewrite forallb_forall in H. specialize (H _ Hx). apply nonterm_b_false. unfold nonterm_b. now destruct (bm_mem x _).
Qed.

Definition covers_b {M} (rules : rulemap T) (maps : reductmap T M) : bool :=
  forallb (fun '(A, i, _) => match bm_get A maps with None => false | Some fs => match nth_error fs i with None => false | Some _ => true end end) (prods rules).

Lemma covers_ok {M} (rules : rulemap T) (maps : reductmap T M) : wf_rules rules -> covers_b rules maps = true -> covers rules maps.
Proof.
  intros W H A i rhs Hp. apply (forall_prods _ W _ H) in Hp. cbn beta iota in Hp.
  destruct (bm_get A maps) as [fs|]; [|discriminate]. destruct (nth_error fs i) as [f|] eqn:E; [|discriminate]. eauto.
Qed.
End CheckTable.

(** ** non-termination of concrete runs *)
Section Diverge.
Lemma transitive_diverges {A} {OA : Ord A} (f : A -> res A) (orbit : list A) :
  (forall x, In x orbit -> exists y, f x = Val y /\ In y orbit /\ y <> x) ->
  forall fuel x, In x orbit -> transitive fuel x f = Fuel.
Proof.
  intros H. induction fuel as [|n IH]; intros x Hx; auto. cbn [transitive]. destruct (H x Hx) as (y & E & Hy & N). rewrite E. cbn [bind].
  destruct (eqb_spec y x); [congruence|]. auto.
Qed.

Definition orbit_b {A} {OA : Ord A} (f : A -> res A) (orbit : list A) : bool :=
  forallb (fun x => match f x with Val y => existsb (eqb y) orbit && negb (eqb y x) | _ => false end) orbit.

Lemma orbit_ok {A} {OA : Ord A} (f : A -> res A) orbit : orbit_b f orbit = true ->
  forall x, In x orbit -> exists y, f x = Val y /\ In y orbit /\ y <> x.
Proof.
  intros H x Hx. unfold orbit_b in H. rewrite forallb_forall in H. specialize (H x Hx). destruct (f x) as [y| |]; try discriminate.
  apply andb_prop in H as [H1 H2]. apply existsb_exists in H1 as (z & Hz & E). apply eqb_eq in E. subst z. exists y. split; auto. split; auto.
  intros ->. now rewrite eqb_refl in H2.
Qed.

Context {T : Type} {OT : Ord T} {M : Type}.

(** a set of configurations the driver never leaves *)
Lemma start_diverges (P : dfa T M -> Prop) :
  (forall d, P d -> d_finished d = false /\ exists f d', travel f d (lookahead d) = Val (d', Ok) /\ P d') ->
  forall fuel d, P d -> dfa_start fuel d = Fuel.
Proof.
  intros H. induction fuel as [|n IH]; intros d Hd; auto. cbn [dfa_start]. destruct (H d Hd) as (Ef & f & d' & E & Hd'). rewrite Ef.
  pose proof (travel_rle (M := M) n (max n f) d (lookahead d) (Nat.le_max_l _ _)) as R. rewrite (travel_mono _ _ _ _ E (max n f)) in R by lia.
  destruct (travel n d (lookahead d)) as [[d1 o]|p|]; auto; cbn [bind].
  - assert ((d1, o) = (d', Ok)) as [= -> ->].
    { assert (Val (d', Ok) = Val (d1, o)) as X by (apply R; discriminate). congruence. }
    auto.
  - exfalso. assert (Val (d', Ok) = Panic p) as X by (apply R; discriminate). discriminate.
Qed.
End Diverge.
