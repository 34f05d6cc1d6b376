(** The printed tables and the trace (C40, C54, C55). *)
From Coq Require Import List Bool Arith Lia.
From Verif Require Import BTree Model Show Base Spec SpecP GrammarP FirstFollow Closure Merged Canon ActTab LR Sound CanonLR LalrLR Interface Wrap Reduce Total Final Mono Export.
Import ListNotations.

Section ShowP.
Context {T : Type} {OT : Ord T}.
Variables (dbg : bool) (start eof : T) (rules : rulemap T) (g : grammar T).
Hypothesis W : wf_rules rules.
Hypothesis Hg : grammar_new dbg start rules eof = Val g.

Lemma builds_makes k t o : builds k dbg g t o -> makes k dbg g t.
Proof. destruct k; simpl; [intros [_ H]|intros [_ H]|intros (fuel & p & _ & H)]; eauto. Qed.

Lemma makes_builds k t : makes k dbg g t -> exists o, builds k dbg g t o.
Proof. destruct k; simpl; [intros H; exists None; auto|intros H; exists None; auto|intros (fuel & p & H); exists (Some p), fuel, p; auto]. Qed.

(** ** resolving a transition *)
Lemma builds_resolve k t o q row pos X : builds k dbg g t o -> nth_error (t_states t) q = Some row -> In pos row -> at_dot pos = Some X ->
  exists fk n c, final_kernel o (sym_filter row X) = Some fk /\ without_look fk = without_look (sym_filter row X) /\ (k <> LALR -> fk = sym_filter row X) /\
    state_from_kernel o t (sym_filter row X) = Some n /\ state_from_kernel o t fk = Some n /\ nth_error (t_states t) n = Some c /\ moves t q X n.
Proof.
  intros HB Hq Hp Hd. pose proof (builds_makes _ _ _ HB) as Hm. destruct (Wp0 _ _ _ _ _ W Hg) as (p0 & Hp0 & _).
  rewrite <- ptop_at_dot in Hd. pose proof (filter_ne _ _ _ Hp Hd) as N.
  destruct k; simpl in HB.
  - destruct HB as [-> (fuel & E)]. unfold slr_new in E. apply bind_val in E as (t0 & E0 & E).
    assert (F : tabler_makes dbg g t0) by (now exists fuel). apply (tmakes_facts _ _ _ _ _ W Hg) in F.
    destruct (slr_inv _ _ _ _ _ W Hg _ F _ _ E) as (_ & _ & Hf & HC & _).
    destruct (canon_resolve _ _ _ _ _ W Hg _ _ _ HC _ _ _ _ Hq Hp Hd) as (n & c & H1 & H2 & _).
    exists (sym_filter row X), n, c. unfold state_from_kernel, final_kernel. repeat (split; [now auto|]).
    eapply tr_moves; eauto; [eapply slr_lr0; eauto|]. exists row, pos. auto.
  - destruct HB as [-> (fuel & E)]. unfold clr_new in E. apply bind_val in E as (t0 & E0 & E).
    assert (F : tabler_makes dbg g t0) by (now exists fuel). apply (tmakes_facts _ _ _ _ _ W Hg) in F.
    destruct (clr_inv _ _ _ _ _ W Hg _ F _ _ E) as (_ & _ & Hf & HC & _).
    destruct (canon_resolve _ _ _ _ _ W Hg _ _ _ HC _ _ _ _ Hq Hp Hd) as (n & c & H1 & H2 & _).
    exists (sym_filter row X), n, c. unfold state_from_kernel, final_kernel. repeat (split; [now auto|]).
    eapply tr_moves; eauto; [eapply clr_lr0; eauto|]. exists row, pos. auto.
  - destruct HB as (fuel & p & -> & E). unfold lalr_new in E. apply bind_val in E as (t0 & E0 & E).
    assert (F : tabler_makes dbg g t0) by (now exists fuel). apply (tmakes_facts _ _ _ _ _ W Hg) in F.
    destruct (lalr_inv _ _ _ _ _ W Hg _ F _ _ _ E) as (_ & _ & _ & Hst & Hks & _). pose proof Hq as Hq'. rewrite Hst in Hq'.
    destruct (lalr_resolve _ _ _ _ _ W Hg _ F _ _ _ E _ _ _ _ Hq' Hp Hd) as (n & c & H1 & H2 & _).
    destruct (lalr_final _ _ _ _ _ W Hg _ F _ _ _ E _ _ H1 N) as (fk & K1 & K2 & K3).
    exists fk, n, c. unfold state_from_kernel, final_kernel. rewrite K2, K1, Hks, Hst. repeat (split; [auto; congruence|]).
    eapply tr_moves; eauto; [rewrite Hst; eapply lalr_lr0; eauto|]. exists row, pos. rewrite Hst. auto.
Qed.

Lemma filter_nil_none (row : state T) X : sym_filter row X = [] -> ~ exists pos, In pos row /\ at_dot pos = Some X.
Proof. intros E (pos & Hp & Hd). rewrite <- ptop_at_dot in Hd. exact (filter_ne _ _ _ Hp Hd E). Qed.

Lemma filter_some (row : state T) X : sym_filter row X <> [] -> exists pos, In pos row /\ at_dot pos = Some X.
Proof.
  destruct (sym_filter row X) as [|x l] eqn:E; [congruence|]. intros _. assert (In x (sym_filter row X)) as H by (rewrite E; now left).
  apply sym_filter_in in H as (p & Hp & Hd & _). exists p. rewrite <- ptop_at_dot. auto.
Qed.

Lemma combine_seq {A} (l : list A) : forall i j x, In (j, x) (combine (seq i (length l)) l) <-> i <= j /\ nth_error l (j - i) = Some x.
Proof.
  induction l as [|a l IH]; intros i j x; simpl.
  - split; [intros []|intros [_ H]]. destruct (j - i); discriminate.
  - rewrite IH. split.
    + intros [[= <- <-]|[H1 H2]]; [rewrite Nat.sub_diag; auto|]. split; [lia|]. now replace (j - i) with (S (j - S i)) by lia.
    + intros [H1 H2]. destruct (Nat.eq_dec i j) as [->|N].
      * rewrite Nat.sub_diag in H2. injection H2 as ->. now left.
      * right. split; [lia|]. now replace (j - i) with (S (j - S i)) in H2 by lia.
Qed.

Lemma combine_fst {A} (l : list A) : forall i, map fst (combine (seq i (length l)) l) = seq i (length l).
Proof. induction l as [|a l IH]; intros i; simpl; auto. now rewrite IH. Qed.

Lemma nodup_app {A} (l m : list A) : NoDup l -> NoDup m -> (forall a, In a l -> ~ In a m) -> NoDup (l ++ m).
Proof.
  induction l as [|a l IH]; intros H1 H2 H3; simpl; auto. inversion H1; subst. constructor.
  - intros Hi. apply in_app_iff in Hi as [Hi|Hi]; [contradiction|]. exact (H3 a (or_introl eq_refl) Hi).
  - apply IH; auto. intros b Hb. apply H3. now right.
Qed.

Lemma NoDup_concat {A B} (f : B -> list A) (l : list B) : NoDup l -> (forall b, In b l -> NoDup (f b)) ->
  (forall b1 b2 a, In b1 l -> In b2 l -> In a (f b1) -> In a (f b2) -> b1 = b2) -> NoDup (concat (map f l)).
Proof.
  induction l as [|b l IH]; intros H1 H2 H3; simpl; [constructor|]. inversion H1 as [|? ? N1 N2]; subst. apply nodup_app.
  - apply H2. now left.
  - apply IH; auto; intros; [apply H2; now right|]. eapply H3; eauto; now right.
  - intros a Ha Hc. apply in_concat in Hc as (x & Hx & Hax). apply in_map_iff in Hx as (b' & <- & Hb').
    apply N1. rewrite (H3 b b' a); auto; [now left|now right].
Qed.

Definition row_key (r : nat * T * state T * nat * state T) : nat * T := (fst (fst (fst (fst r))), snd (fst (fst (fst r)))).

Lemma states_rows k t o : builds k dbg g t o ->
  exists rows, states_table o t = Val rows /\ NoDup (map row_key rows) /\
  (forall q x, (exists fk n c, In (q, x, fk, n, c) rows) <-> exists row pos, nth_error (t_states t) q = Some row /\ In pos row /\ at_dot pos = Some x) /\
  (forall q x fk n c, In (q, x, fk, n, c) rows -> exists row, nth_error (t_states t) q = Some row /\
     final_kernel o (sym_filter row x) = Some fk /\ state_from_kernel o t fk = Some n /\ nth_error (t_states t) n = Some c /\ moves t q x n /\
     without_look fk = without_look (sym_filter row x) /\ (k <> LALR -> fk = sym_filter row x)).
Proof.
  intros HB. pose proof (builds_makes _ _ _ HB) as Hm. pose proof (makes_grammar _ _ _ _ _ W Hg _ _ Hm) as Eg.
  set (cell := fun q row x => match states_cell o t q row x with Val l => l | _ => [] end).
  assert (HC : forall q row x, nth_error (t_states t) q = Some row -> states_cell o t q row x = Val (cell q row x) /\
    ((sym_filter row x = [] /\ cell q row x = []) \/ exists fk n c, cell q row x = [(q, x, fk, n, c)] /\ (exists pos, In pos row /\ at_dot pos = Some x) /\
      final_kernel o (sym_filter row x) = Some fk /\ state_from_kernel o t fk = Some n /\ nth_error (t_states t) n = Some c /\ moves t q x n /\
      without_look fk = without_look (sym_filter row x) /\ (k <> LALR -> fk = sym_filter row x))).
  { intros q row x Hq. destruct (sym_filter row x) as [|b l] eqn:E.
    - assert (states_cell o t q row x = Val []) as E1 by (unfold states_cell; now rewrite E). unfold cell. rewrite E1. auto.
    - assert (exists pos, In pos row /\ at_dot pos = Some x) as (pos & Hp & Hd) by (apply filter_some; congruence).
      destruct (builds_resolve _ _ _ _ _ _ _ HB Hq Hp Hd) as (fk & n & c & H1 & H2 & H3 & H4 & H5 & H6 & H7). rewrite E in *.
      assert (states_cell o t q row x = Val [(q, x, fk, n, c)]) as E1 by (unfold states_cell; rewrite E, H1; cbn [expect bind]; rewrite H5; cbn [expect bind]; rewrite H6; reflexivity).
      unfold cell. rewrite E1. split; auto. right. exists fk, n, c. repeat (split; eauto). }
  set (line := fun '(q, row) => concat (map (cell q row) (g_symbols (t_grammar t))) : list (nat * T * state T * nat * state T)).
  set (body := combine (seq 0 (length (t_states t))) (t_states t)).
  assert (Hbody : forall q row, In (q, row) body <-> nth_error (t_states t) q = Some row).
  { intros q row. unfold body. rewrite combine_seq, Nat.sub_0_r. split; [tauto|]. intros H; split; auto; lia. }
  exists (concat (map line body)). split; [|split; [|split]].
  - unfold states_table. assert (exists s0, nth_error (t_states t) 0 = Some s0) as (s0 & ->).
    { destruct (Wp0 _ _ _ _ _ W Hg) as (p0 & Hp0 & _). destruct (makes_lr0 _ _ _ _ _ W Hg _ _ _ Hm Hp0) as (sfk & L & _).
      destruct (l_start _ _ _ _ _ _ _ _ L) as (row & l & H & _). eauto. }
    cbn [expect bind]. fold body. rewrite (mapM_map _ line); [reflexivity|]. intros [q row] Hin. apply Hbody in Hin.
    rewrite (mapM_map _ (cell q row)); [reflexivity|]. intros x _. exact (proj1 (HC q row x Hin)).
  - rewrite concat_map, map_map. apply NoDup_concat.
    + unfold body. assert (map fst (combine (seq 0 (length (t_states t))) (t_states t)) = seq 0 (length (t_states t))) as E by apply combine_fst.
      apply (NoDup_map_inv fst). rewrite E. apply seq_NoDup.
    + intros [q row] Hin. apply Hbody in Hin. unfold line. rewrite concat_map, map_map. apply NoDup_concat.
      * rewrite Eg. apply sorted_NoDup. eapply grammar_new_sorted; eauto.
      * intros x _. destruct (HC q row x Hin) as [_ [[_ ->]|(fk & n & c & -> & _)]]; simpl; repeat constructor; auto.
      * intros x y a _ _ Hx Hy. destruct (HC q row x Hin) as [_ [[_ E]|(fk & n & c & E & _)]]; rewrite E in Hx; simpl in Hx; [tauto|].
        destruct (HC q row y Hin) as [_ [[_ E']|(fk' & n' & c' & E' & _)]]; rewrite E' in Hy; simpl in Hy; [tauto|].
        destruct Hx as [<-|[]], Hy as [E2|[]]. unfold row_key in E2. simpl in E2. congruence.
    + intros [q row] [q' row'] a Hin Hin' Ha Ha'. apply Hbody in Hin, Hin'. unfold line in Ha, Ha'.
      apply in_map_iff in Ha as (r & <- & Hr). apply in_map_iff in Ha' as (r' & E & Hr').
      apply in_concat in Hr as (l & Hl & Hr). apply in_map_iff in Hl as (x & <- & _).
      apply in_concat in Hr' as (l & Hl & Hr'). apply in_map_iff in Hl as (y & <- & _).
      destruct (HC q row x Hin) as [_ [[_ Ex]|(fk & n & c & Ex & _)]]; rewrite Ex in Hr; simpl in Hr; [tauto|].
      destruct (HC q' row' y Hin') as [_ [[_ E']|(fk' & n' & c' & E' & _)]]; rewrite E' in Hr'; simpl in Hr'; [tauto|].
      destruct Hr as [<-|[]], Hr' as [<-|[]]. unfold row_key in E. simpl in E. injection E as -> ->. congruence.
  - intros q x. split.
    + intros (fk & n & c & Hin). apply in_concat in Hin as (l & Hl & Hin). apply in_map_iff in Hl as ([q' row] & <- & Hq). apply Hbody in Hq.
      unfold line in Hin. apply in_concat in Hin as (l & Hl & Hin). apply in_map_iff in Hl as (y & <- & Hy).
      destruct (HC q' row y Hq) as [_ [[_ E]|(fk' & n' & c' & E & (pos & Hp & Hd) & _)]]; rewrite E in Hin; simpl in Hin; [tauto|].
      destruct Hin as [[= <- <- _ _ _]|[]]. eauto.
    + intros (row & pos & Hq & Hp & Hd). destruct (HC q row x Hq) as [_ [[E _]|(fk & n & c & E & _)]].
      * exfalso. eapply filter_nil_none; eauto.
      * exists fk, n, c. apply in_concat. exists (line (q, row)). split; [apply in_map; now apply Hbody|]. unfold line. apply in_concat.
        exists (cell q row x). rewrite E. split; [|now left]. rewrite <- E. apply in_map. rewrite Eg.
        destruct (Wp0 _ _ _ _ _ W Hg) as (p0 & Hp0 & _). destruct (makes_lr0 _ _ _ _ _ W Hg _ _ _ Hm Hp0) as (sfk & L & _).
        destruct pos as [A pr i lk]. destruct (l_valid _ _ _ _ _ _ _ _ L q A pr i) as [Hv _]; [exists row, lk; auto|].
        rewrite (Wr _ _ _ _ _ Hg) in Hv. eapply rhs_in_symbols; eauto. eapply nth_error_In. exact Hd.
  - intros q x fk n c Hin. apply in_concat in Hin as (l & Hl & Hin). apply in_map_iff in Hl as ([q' row] & <- & Hq). apply Hbody in Hq.
    unfold line in Hin. apply in_concat in Hin as (l & Hl & Hin). apply in_map_iff in Hl as (y & <- & Hy).
    destruct (HC q' row y Hq) as [_ [[_ E]|(fk' & n' & c' & E & _ & H)]]; rewrite E in Hin; simpl in Hin; [tauto|].
    destruct Hin as [[= <- <- <- <- <-]|[]]. exists row. split; auto.
Qed.

(** ** FIRST and FOLLOW side by side *)
Lemma zip_tables {V} (l m : bmap T V) : map fst l = map fst m -> sorted (map fst l) ->
  forall A a b, In (A, a, b) (map (fun '((k, x), y) => (k, x, y)) (combine l (bm_values m))) <-> bm_get A l = Some a /\ bm_get A m = Some b.
Proof.
  revert m. induction l as [|[k x] l IH]; intros [|[k' y] m] E Hs A a b; try discriminate.
  - simpl. split; [tauto|intros [[=] _]].
  - simpl in E. injection E as -> E. simpl in Hs. destruct Hs as [Hk Hs]. cbn [map combine bm_values snd In]. simpl.
    specialize (IH m E Hs A a b). destruct (eqb_spec A k') as [->|N].
    + split.
      * intros [[= -> ->]|H]; auto. exfalso. apply IH in H as [H _]. apply bm_get_in in H. apply in_map with (f := fst) in H. simpl in H.
        apply Hk in H. now rewrite cmp_refl in H.
      * intros [[= ->] [= ->]]. now left.
    + rewrite <- IH. split; [intros [[= -> _ _]|H]; [congruence|auto]|auto].
Qed.

Lemma zip_keys {V W'} (l : bmap T V) : forall m : list W', length l = length m ->
  map (fun r => fst (fst r)) (map (fun '((k, x), y) => (k, x, y)) (combine l m)) = map fst l.
Proof. induction l as [|[k x] l IH]; intros [|y m] L; simpl in *; try discriminate; auto. f_equal. apply IH. now injection L. Qed.

Lemma bm_mem_keys {V} (m : bmap T V) A : bm_mem A m = true <-> In A (map fst m).
Proof.
  unfold bm_mem. induction m as [|[k v] m IH]; simpl; [split; [discriminate|tauto]|].
  destruct (eqb_spec A k) as [->|N]; [tauto|]. rewrite IH. split; [auto|intros [H|H]; [congruence|auto]].
Qed.

(** a reachable nonterminal other than the start symbol is used by another rule *)
Lemma used_by_other A : (exists u v, derives rules [start] (u ++ A :: v)) -> A <> start ->
  exists B i rhs, prod_at rules B i rhs /\ In A rhs /\ A <> B.
Proof.
  intros (u & v & H) N. assert (forall x y, derives rules x y -> ~ In A x -> In A y -> exists B i rhs, prod_at rules B i rhs /\ In A rhs /\ A <> B) as G.
  { induction 1 as [x|x y z Hr Hd IH]; [contradiction|]. intros Nx Hz. destruct Hr as [a B b i rhs Hp].
    destruct (in_dec ord_dec A rhs) as [Hi|Hi].
    - exists B, i, rhs. split; auto. split; auto. intros ->. apply Nx. apply in_app_iff. simpl. auto.
    - apply IH; auto. rewrite !in_app_iff in *. simpl in *. tauto. }
  eapply G; [exact H| |].
  - simpl. intros [->|[]]. congruence.
  - apply in_app_iff. simpl. auto.
Qed.

Lemma tokens_rows k t : makes k dbg g t -> (forall A, nonterm rules A -> A <> start -> exists B i rhs, prod_at rules B i rhs /\ In A rhs /\ A <> B) ->
  (forall A f w, In (A, f, w) (tokens_table t) <-> bm_get A (t_first t) = Some f /\ bm_get A (t_follow t) = Some w) /\
  map (fun r => fst (fst r)) (tokens_table t) = bm_keys rules.
Proof.
  intros Hm Hu. destruct (makes_tabler _ _ _ _ _ W Hg _ _ Hm) as (t0 & _ & F & fuel & E).
  assert (t_first t = t_first t0 /\ t_follow t = t_follow t0) as [E1 E2].
  { destruct k.
    - destruct (slr_inv _ _ _ _ _ W Hg _ F _ _ E) as (_ & ? & ? & _). auto.
    - destruct (clr_inv _ _ _ _ _ W Hg _ F _ _ E) as (_ & ? & ? & _). auto.
    - destruct E as (p & E). destruct (lalr_inv _ _ _ _ _ W Hg _ F _ _ _ E) as (_ & ? & ? & _). auto. }
  unfold tokens_table. rewrite E1, E2.
  assert (map fst (t_first t0) = map fst (t_follow t0)) as K.
  { apply sorted_ext; [exact (tf_first_sorted _ _ _ _ _ _ F)|exact (tf_follow_sorted _ _ _ _ _ _ F)|]. intros A. rewrite <- !bm_mem_keys.
    rewrite (tf_follow_keys _ _ _ _ _ _ F). transitivity (nonterm rules A).
    - rewrite <- (tf_first_keys _ _ _ _ _ _ F). unfold bm_mem. destruct (bm_get A (t_first t0)); split; eauto; try discriminate. intros (s & [=]).
    - split.
      + intros HA. destruct (ord_dec A start) as [->|N]; auto. right. destruct (Hu A HA N) as (B & i & rhs & Hp & Hi & NB).
        exists B, i, rhs. split; auto. split; auto. apply in_split in Hi as (u & v & ->). destruct v as [|Y v]; [right; eauto|left; eauto].
      + intros [->|(B & i & rhs & _ & N & _)]; auto. destruct (Wp0 _ _ _ _ _ W Hg) as (p0 & _ & Hp & _). eapply prod_nonterm; eauto. }
  split.
  - intros A f w. apply zip_tables; auto. exact (tf_first_sorted _ _ _ _ _ _ F).
  - transitivity (map fst (t_first t0)).
    + assert (length (t_first t0) = length (bm_values (t_follow t0))) as L by (unfold bm_values; rewrite map_length, <- (map_length fst (t_first t0)), K, map_length; reflexivity).
      now apply zip_keys.
    + unfold bm_keys. apply sorted_ext; [exact (tf_first_sorted _ _ _ _ _ _ F)|exact (proj1 W)|]. intros A. rewrite <- !bm_mem_keys. unfold bm_mem.
      pose proof (tf_first_keys _ _ _ _ _ _ F A) as H. unfold nonterm in H.
      destruct (bm_get A (t_first t0)), (bm_get A rules); split; auto; try discriminate; intros _; exfalso; destruct H as [H1 H2];
        [destruct H1 as (? & [=]); eauto|destruct H2 as (? & [=]); eauto].
Qed.
End ShowP.

(** ** The action table *)
Section Actions.
Context {T : Type} {OT : Ord T}.
Variables (dbg : bool) (start eof : T) (rules : rulemap T) (g : grammar T).
Hypothesis W : wf_rules rules.
Hypothesis Hg : grammar_new dbg start rules eof = Val g.

Lemma columns_spec (t : tabler T) : t_grammar t = g -> sorted (fst (actions_columns t)) /\ sorted (snd (actions_columns t)) /\
  (forall x, In x (fst (actions_columns t)) <-> In x (g_symbols g) /\ term rules x) /\
  (forall x, In x (snd (actions_columns t)) <-> In x (g_symbols g) /\ nonterm rules x).
Proof.
  intros Eg. unfold actions_columns. rewrite Eg. cbv zeta.
  set (f := fun '(ts, nts) s => if is_terminal g s then (bs_insert s ts, nts) else (ts, bs_insert s nts)).
  assert (G : forall l ts nts, sorted ts -> sorted nts -> let r := fold_left f l (ts, nts) in
    sorted (fst r) /\ sorted (snd r) /\ (forall x, In x (fst r) <-> In x ts \/ (In x l /\ term rules x)) /\ (forall x, In x (snd r) <-> In x nts \/ (In x l /\ nonterm rules x))).
  { induction l as [|a l IH]; intros ts nts H1 H2; cbv zeta; simpl; [repeat split; auto; tauto|]. pose proof (Wr _ _ _ _ _ Hg) as Er.
    destruct (is_terminal g a) eqn:E.
    - apply is_terminal_term in E. rewrite Er in E. destruct (IH (bs_insert a ts) nts) as (K1 & K2 & K3 & K4); auto using bs_insert_sorted. 
      split; auto. split; auto. split; intros x; [rewrite K3, bs_insert_in|rewrite K4]; split.
      + intros [[->|H]|H]; tauto.
      + intros [H|[[->|H] H']]; tauto.
      + tauto.
      + intros [H|[[->|H] H']]; try tauto. contradiction.
    - apply is_terminal_nonterm in E. rewrite Er in E. destruct (IH ts (bs_insert a nts)) as (K1 & K2 & K3 & K4); auto using bs_insert_sorted.
      split; auto. split; auto. split; intros x; [rewrite K3|rewrite K4, bs_insert_in]; split.
      + tauto.
      + intros [H|[[->|H] H']]; try tauto. contradiction.
      + intros [[->|H]|H]; tauto.
      + intros [H|[[->|H] H']]; tauto. }
  destruct (G (g_symbols g) [] []) as (K1 & K2 & K3 & K4); simpl; auto. split; auto. split; auto. split; intros x; [rewrite K3|rewrite K4]; simpl; tauto.
Qed.

(** the keys of the action table are symbols of the grammar *)
Lemma action_symbols k t q row x a : makes k dbg g t -> nth_error (t_actions t) q = Some row -> bm_get x row = Some a -> In x (g_symbols g).
Proof.
  intros Hm Hq Hx. destruct (table_exact _ _ _ _ _ W Hg _ _ Hm) as (go & _ & _ & H). destruct (H _ _ Hq) as (_ & H1 & _).
  assert (exists b, inside b a) as (b & Hb) by (clear; induction a as [| | | |a1 [b1 IH1] a2 _]; [eexists; reflexivity..|]; exists b1; simpl; auto).
  assert (decides k t go q x b) as D by (apply H1; eauto). clear H H1.
  pose proof (makes_grammar _ _ _ _ _ W Hg _ _ Hm) as Eg. pose proof (Wr _ _ _ _ _ Hg) as Er.
  destruct (makes_tabler _ _ _ _ _ W Hg _ _ Hm) as (t0 & _ & F & fuel & E).
  assert (V : forall row pos, nth_error (t_states t) q = Some row -> In pos row -> vpos g pos).
  { intros row' pos Hr Hp. destruct k.
    - destruct (slr_inv _ _ _ _ _ W Hg _ F _ _ E) as (_ & _ & _ & [C _] & _). exact (ci_vpos _ _ _ C q row' _ Hr Hp).
    - destruct (clr_inv _ _ _ _ _ W Hg _ F _ _ E) as (_ & _ & _ & [C _] & _). exact (ci_vpos _ _ _ C q row' _ Hr Hp).
    - destruct E as (p & E). destruct (lalr_inv _ _ _ _ _ W Hg _ F _ _ _ E) as (_ & _ & _ & Hst & _). rewrite Hst in Hr. eapply lalr_vpos; eauto. }
  assert (A : forall row pos, nth_error (t_states t) q = Some row -> In pos row -> allows k t pos x -> In x (g_symbols g)).
  { intros row' pos Hr Hp Ha. destruct (V _ _ Hr Hp) as (_ & _ & Hi). destruct k; simpl in Ha; [|now apply Hi..].
    destruct (slr_inv _ _ _ _ _ W Hg _ F _ _ E) as (_ & _ & E2 & _). rewrite E2 in Ha.
    rewrite (grammar_new_symbols _ _ _ _ _ _ W Hg), (grammar_new_terminals _ _ _ _ _ _ W Hg).
    destruct (tf_follow_syms _ _ _ _ _ _ F _ _ Ha) as [->|[N|(B & i & rhs & Hpr & Hi')]]; auto.
    destruct (nonterm_dec rules x) as [N|N]; auto. right. right. split; eauto. }
  destruct D as [r pos x Hr Hp Hd _|r pos x Hr Hp Hd _|r pos x Hr Hp _ Ha _|r pos x Hr Hp _ Ha _]; eauto;
    rewrite <- ptop_at_dot in Hd; eapply ptop_symbols; eauto.
Qed.

Lemma nth_combine_seq {A} (l : list A) : forall i q, nth_error (combine (seq i (length l)) l) q = option_map (fun x => (i + q, x)) (nth_error l q).
Proof. induction l as [|a l IH]; intros i [|q]; simpl; auto. - f_equal. f_equal. lia. - rewrite IH. now replace (S i + q) with (i + S q) by lia. Qed.

Lemma actions_rows k t : makes k dbg g t -> exists ts nts, actions_columns t = (ts, nts) /\ sorted ts /\ sorted nts /\
  (forall x, In x ts <-> In x (g_symbols g) /\ term rules x) /\ (forall x, In x nts <-> In x (g_symbols g) /\ nonterm rules x) /\
  length (actions_table t) = length (t_states t) /\
  forall q row, nth_error (t_actions t) q = Some row ->
    nth_error (actions_table t) q = Some (map (fun x => bm_get x row) ts, q, map (fun x => bm_get x row) nts) /\
    forall x a, bm_get x row = Some a -> In x (ts ++ nts).
Proof.
  intros Hm. pose proof (makes_grammar _ _ _ _ _ W Hg _ _ Hm) as Eg. destruct (columns_spec t Eg) as (H1 & H2 & H3 & H4).
  exists (fst (actions_columns t)), (snd (actions_columns t)). split; [apply surjective_pairing|]. repeat (split; [assumption|]).
  unfold actions_table. destruct (actions_columns t) as [ts nts] eqn:E. cbn [fst snd] in *.
  destruct (table_exact _ _ _ _ _ W Hg _ _ Hm) as (go & _ & L & _). split.
  - rewrite map_length, combine_length, seq_length, Nat.min_id. auto.
  - intros q row Hq. split.
    + rewrite nth_error_map, nth_combine_seq, Hq. reflexivity.
    + intros x a Hx. pose proof (action_symbols _ _ _ _ _ _ Hm Hq Hx) as Hs. apply in_app_iff. rewrite H3, H4.
      destruct (nonterm_dec rules x); auto.
Qed.
End Actions.

(** ** The trace *)
Section Trace.
Context {T : Type} {OT : Ord T} {M : Type}.

Inductive traced : dfa T M -> list (dfa T M) -> dfa T M * outcome T -> Prop :=
| traced_done d : d_finished d = true -> traced d [] (d, Ok)
| traced_round d d' l r : round d d' -> traced d' l r -> traced d (d :: l) r
| traced_err d d' e : d_finished d = false -> (exists fuel, travel fuel d (lookahead d) = Val (d', Err e)) -> traced d [d] (d', Err e).

Lemma trace_start fuel : forall d : dfa T M, dfa_start fuel d = (do '(_, r) <- dfa_trace fuel d; Val r).
Proof.
  induction fuel as [|n IH]; intros d; simpl; auto. destruct (d_finished d); auto. destruct (travel n d (lookahead d)) as [[d' [|e]]|p|]; simpl; auto.
  rewrite IH. destruct (dfa_trace n d') as [[l r]|p|]; reflexivity.
Qed.

Lemma trace_traced fuel : forall (d : dfa T M) l r, dfa_trace fuel d = Val (l, r) -> traced d l r.
Proof.
  induction fuel as [|n IH]; intros d l r E; simpl in E; [discriminate|]. destruct (d_finished d) eqn:Ef.
  - injection E as <- <-. now constructor.
  - apply bind_val in E as ([d' o] & E1 & E). destruct o as [|e].
    + apply bind_val in E as ([l' r'] & E2 & [= <- <-]). econstructor; eauto. split; eauto.
    + injection E as <- <-. constructor; eauto.
Qed.

Lemma traced_fun (d : dfa T M) l r : traced d l r -> forall l' r', traced d l' r' -> l = l' /\ r = r'.
Proof.
  induction 1 as [d Ef|d d' l r [Ef (f & E)] Ht IH|d d' e Ef (f & E)]; inversion 1 as [d1 Ef'|d1 d1' l1 r1 [Ef' (f' & E')] Ht'|d1 d1' e1 Ef' (f' & E')]; subst; try congruence; auto;
    pose proof (travel_fun _ _ _ _ _ _ E E') as X; try discriminate.
  - injection X as <-. destruct (IH _ _ Ht') as [-> ->]. auto.
  - injection X as -> ->. auto.
Qed.

Lemma traced_suffix (d : dfa T M) l r d' : traced d l r -> In d' l -> exists l1 l2, l = l1 ++ l2 /\ traced d' l2 r.
Proof.
  induction 1 as [d Ef|d d1 l r Hr Ht IH|d d1 e Ef E]; intros Hi; [destruct Hi| |].
  - destruct Hi as [->|Hi].
    + exists [], (d' :: l). split; auto. econstructor; eauto.
    + destruct (IH Hi) as (l1 & l2 & -> & H). exists (d :: l1), l2. auto.
  - destruct Hi as [->|[]]. exists [], [d']. split; auto. now constructor.
Qed.

(** no configuration is shown twice *)
Lemma traced_nodup (d : dfa T M) l r : traced d l r -> NoDup l.
Proof.
  induction 1 as [d Ef|d d1 l r Hr Ht IH|d d1 e Ef E]; [constructor| |repeat constructor; auto]. constructor; auto. intros Hi.
  destruct (traced_suffix _ _ _ _ Ht Hi) as (l1 & l2 & -> & H2).
  destruct (traced_fun _ _ _ H2 _ _ (traced_round _ _ _ _ Hr Ht)) as [E _].
  apply (f_equal (@length _)) in E. simpl in E. rewrite app_length in E. lia.
Qed.

Lemma traced_reaches (t : tabler T) (input : list (token T M)) maps d l r : traced d l r -> reaches t input maps d -> forall d', In d' l -> reaches t input maps d' /\ d_finished d' = false.
Proof.
  induction 1 as [d Ef|d d1 l r Hr Ht IH|d d1 e Ef E]; intros R d' Hi; [destruct Hi| |].
  - destruct Hi as [<-|Hi]; [split; auto; exact (proj1 Hr)|]. apply IH; auto. eapply reaches_round; eauto.
  - destruct Hi as [<-|[]]. auto.
Qed.

Lemma reaches_traced (t : tabler T) (input : list (token T M)) maps d0 l r : parser_dfa t input maps = Val d0 -> traced d0 l r ->
  forall d', reaches t input maps d' -> d_finished d' = false -> In d' l.
Proof.
  intros E0 Ht d' R. assert (exists l1 l2, l = l1 ++ l2 /\ traced d' l2 r) as (l1 & l2 & -> & H).
  { induction R as [d E|d d' R (l1 & l2 & -> & H) Hr].
    - rewrite E0 in E. injection E as <-. exists [], l. auto.
    - destruct Hr as [Ef (f & Ef')]. inversion H as [d1 X|d1 d1' l3 r1 [_ (f' & E')] Ht'|d1 d1' e1 X (f' & E')]; subst.
      + congruence.
      + pose proof (travel_fun _ _ _ _ _ _ Ef' E') as Y. injection Y as <-. exists (l1 ++ [d]), l3. rewrite <- app_assoc. auto.
      + pose proof (travel_fun _ _ _ _ _ _ Ef' E') as Y. discriminate. }
  intros Ef. apply in_app_iff. right. inversion H; subst; try congruence; now left.
Qed.

(** what the printed stack looks like *)
Inductive printed (t : tabler T) : list (nat + T) -> nat -> Prop :=
| printed_bottom : printed t [inl 0] 0
| printed_push l q x n : printed t l q -> moves t q x n -> printed t (l ++ [inr x; inl n]) n.

Lemma weave_snoc {A B} (l : list A) : forall (m : list B) x a, length l = S (length m) -> weave (l ++ [a]) (m ++ [x]) = weave l m ++ [inr x; inl a].
Proof.
  induction l as [|a0 l IH]; intros m x a E; [discriminate|]. destruct m as [|b m]; simpl in *.
  - destruct l; [reflexivity|discriminate].
  - rewrite IH by lia. reflexivity.
Qed.

Lemma printed_path (t : tabler T) qs xs : stack_path t qs xs -> length qs = S (length xs) /\
  exists q, hd_error qs = Some q /\ printed t (weave (rev qs) (rev xs)) q.
Proof.
  induction 1 as [|q qs x xs n H [L (q' & [= <-] & IH)] Hm]; [split; auto; exists 0; split; auto; constructor|].
  split; [simpl in *; lia|]. exists n. split; auto. change (rev (n :: q :: qs)) with (rev (q :: qs) ++ [n]). change (rev (x :: xs)) with (rev xs ++ [x]).
  rewrite weave_snoc by (rewrite !rev_length; auto). econstructor; eauto.
Qed.

Lemma stack_printed (t : tabler T) (d : dfa T M) : stack_path t (d_states d) (map tk_ty (d_items d)) -> hd_error (d_states d) = Some (d_top d) -> printed t (stack_fmt d) (d_top d).
Proof. intros H E. destruct (printed_path _ _ _ H) as (_ & q & E' & P). rewrite E in E'. injection E' as <-. exact P. Qed.
End Trace.

(** ** What the rows of the states table say *)
Section StatesRows.
Context {T : Type} {OT : Ord T}.
Variables (dbg : bool) (start eof : T) (rules : rulemap T) (g : grammar T).
Hypothesis W : wf_rules rules.
Hypothesis Hg : grammar_new dbg start rules eof = Val g.

Lemma in_sym_filter (row : state T) x p : In p (sym_filter row x) <-> exists pos, In pos row /\ at_dot pos = Some x /\ p = adv pos.
Proof. rewrite sym_filter_in. split; intros (pos & H1 & H2 & H3); exists pos; [rewrite ptop_at_dot in H2|rewrite ptop_at_dot]; auto. Qed.

Lemma moves_transition k t go q x n : makes k dbg g t -> transitions k t go -> 
  (forall q row, nth_error (t_actions t) q = Some row -> forall x b, (exists a, bm_get x row = Some a /\ inside b a) <-> decides k t go q x b) ->
  moves t q x n -> n = go q x.
Proof.
  intros Hm Ht Hd (row & a & Hq & Hx & [Hi|Hi]).
  - assert (decides k t go q x (Shift n)) as D by (eapply Hd; eauto). inversion D; auto.
  - assert (decides k t go q x (Goto n)) as D by (eapply Hd; eauto). inversion D; auto.
Qed.

Lemma core_in (s s' : state T) p : without_look s = without_look s' -> In p s -> exists p', In p' s' /\ no_look p' = no_look p.
Proof.
  intros E Hp. assert (In (no_look p) (without_look s')) as H.
  { rewrite <- E. unfold without_look. apply bs_of_list_in, in_map, Hp. }
  unfold without_look in H. apply bs_of_list_in, in_map_iff in H as (p' & H1 & H2). eauto.
Qed.

Lemma states_rows_full k t o : builds k dbg g t o ->
  exists rows, states_table o t = Val rows /\ NoDup (map (fun '(q, x, _, _, _) => (q, x)) rows) /\
  (forall q x, (exists fk n c, In (q, x, fk, n, c) rows) <-> exists row pos, nth_error (t_states t) q = Some row /\ In pos row /\ at_dot pos = Some x) /\
  (forall q x fk n c, In (q, x, fk, n, c) rows -> exists row, nth_error (t_states t) q = Some row /\ nth_error (t_states t) n = Some c /\ moves t q x n /\
     forall st, st = fk \/ st = c ->
       (forall pos, In pos row -> at_dot pos = Some x -> exists pos', In pos' st /\
          p_rule pos' = p_rule pos /\ p_seq pos' = p_seq pos /\ p_point pos' = S (p_point pos) /\ (k <> LALR -> p_look pos' = p_look pos)) /\
       (forall pos', In pos' st -> st = fk \/ 0 < p_point pos' -> exists pos, In pos row /\ at_dot pos = Some x /\
          p_rule pos' = p_rule pos /\ p_seq pos' = p_seq pos /\ p_point pos' = S (p_point pos))).
Proof.
  intros HB. destruct (states_rows _ _ _ _ _ W Hg _ _ _ HB) as (rows & E & N & H1 & H2). exists rows. split; auto. split.
  { erewrite map_ext; [exact N|]. now intros [[[[? ?] ?] ?] ?]. }
  split; auto. intros q x fk n c Hr. destruct (H2 _ _ _ _ _ Hr) as (row & Hq & Hf & _ & Hn & Hv & Hc & Hk). exists row. split; [auto|]. split; [auto|]. split; [auto|].
  pose proof (builds_makes _ _ _ _ _ HB) as Hm. destruct (table_exact _ _ _ _ _ W Hg _ _ Hm) as (go & Ht & _ & Hd).
  assert (n = go q x) as ->. { eapply moves_transition; eauto. intros q' row' Hq'. exact (proj1 (proj2 (Hd q' row' Hq'))). }
  assert (exists pos, In pos row /\ at_dot pos = Some x) as Hx.
  { destruct (proj1 (H1 q x)) as (row0 & pos & Hq0 & Hp & Hpd); [eauto|]. rewrite Hq in Hq0. injection Hq0 as <-. eauto. }
  intros st [->| ->].
  - split.
    + intros pos Hp Hpd. assert (In (adv pos) (sym_filter row x)) as Hi by (apply in_sym_filter; eauto).
      destruct (core_in _ fk _ (eq_sym Hc) Hi) as (p' & Hp' & Ep).
      destruct k; [rewrite (Hk slr_lalr); exists (adv pos); auto|rewrite (Hk clr_lalr); exists (adv pos); auto|].
      exists p'. split; auto. apply (f_equal pos_tuple) in Ep. injection Ep as -> -> ->. repeat split. intros X. now destruct X.
    + intros pos' Hp' _. destruct (core_in _ _ _ Hc Hp') as (p' & Hi & Ep). apply in_sym_filter in Hi as (pos & Hp & Hpd & ->).
      exists pos. split; auto. split; auto. apply (f_equal pos_tuple) in Ep. simpl in Ep. injection Ep as -> -> <-. auto.
  - destruct (Ht q row x Hq Hx) as (c' & Hc' & A1 & A2). rewrite Hn in Hc'. injection Hc' as <-. split; auto. intros pos' Hp' Hz.
    destruct Hz as [->|Hz]; [|auto].
    destruct (core_in _ _ _ Hc Hp') as (p' & Hi & Ep). apply in_sym_filter in Hi as (pos & Hp & Hpd & ->).
    exists pos. split; auto. split; auto. apply (f_equal pos_tuple) in Ep. simpl in Ep. injection Ep as -> -> <-. auto.
Qed.

Lemma resolve_full k t o : builds k dbg g t o -> forall q row x, nth_error (t_states t) q = Some row -> (exists pos, In pos row /\ at_dot pos = Some x) ->
  exists fk n c, final_kernel o (sym_filter row x) = Some fk /\ state_from_kernel o t (sym_filter row x) = Some n /\ state_from_kernel o t fk = Some n /\
    nth_error (t_states t) n = Some c /\
    forall pos, In pos row -> at_dot pos = Some x -> exists pos', In pos' c /\
      p_rule pos' = p_rule pos /\ p_seq pos' = p_seq pos /\ p_point pos' = S (p_point pos) /\ (k <> LALR -> p_look pos' = p_look pos).
Proof.
  intros HB q row x Hq (pos & Hp & Hd). destruct (builds_resolve _ _ _ _ _ W Hg _ _ _ _ _ _ _ HB Hq Hp Hd) as (fk & n & c & F1 & _ & _ & F2 & F3 & F4 & F5).
  exists fk, n, c. repeat (split; [assumption|]). intros pos1 Hp1 Hd1.
  pose proof (builds_makes _ _ _ _ _ HB) as Hm. destruct (table_exact _ _ _ _ _ W Hg _ _ Hm) as (go & Ht & _ & Hdd).
  assert (n = go q x) as ->. { eapply moves_transition; eauto. intros q' row' Hq'. exact (proj1 (proj2 (Hdd q' row' Hq'))). }
  destruct (Ht q row x Hq) as (c' & Hc' & A1 & A2); [eauto|]. rewrite F4 in Hc'. injection Hc' as <-. auto.
Qed.

(** the run shown by [trace] *)
Lemma trace_full {M} (maps : reductmap T M) k t : makes k dbg g t -> term rules eof -> forall input d0 fuel l r, parser_dfa t input maps = Val d0 -> dfa_trace fuel d0 = Val (l, r) ->
  dfa_start fuel d0 = Val r /\ NoDup l /\ (forall d, In d l <-> reaches t input maps d /\ d_finished d = false) /\
  (Forall (term rules) (map tk_ty input) -> forall d, In d l -> printed t (stack_fmt d) (d_top d)).
Proof.
  intros Hm He input d0 fuel l r E0 E. pose proof (trace_traced _ _ _ _ E) as Ht. split; [rewrite trace_start, E; reflexivity|].
  split; [eapply traced_nodup; eauto|]. assert (forall d, In d l <-> reaches t input maps d /\ d_finished d = false) as H.
  { intros d. split; [intros Hi; eapply traced_reaches; eauto; now constructor|intros [R F]; eapply reaches_traced; eauto]. }
  split; auto. intros Hi d Hd. apply H in Hd as [R _]. destruct (reaches_stack _ _ _ _ _ W Hg maps k t Hm He _ _ R Hi) as (H1 & H2 & _).
  now apply stack_printed.
Qed.
End StatesRows.
