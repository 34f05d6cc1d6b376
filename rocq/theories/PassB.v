(** Deciding [grounded] for a concrete table. *)
From Coq Require Import List Bool Arith Lia.
From Verif Require Import BTree Model Base Spec SpecP GrammarP LR Interface Check LR1Spec ValidSpec.
Import ListNotations.

Section PassB.
Context {T : Type} {OT : Ord T}.
Variables (rules : rulemap T) (start eof : T) (t : tabler T).
Hypothesis W : wf_rules rules.
Notation passed := (passed rules start eof t).

Fixpoint firsts (n : nat) (Y : T) : list T :=
  match n with
  | 0 => []
  | S n => if nonterm_b rules Y then bs_of_list (flat_map (fun '(A, _, rhs) => if eqb A Y then match rhs with X :: _ => firsts n X | [] => [] end else []) (prods rules)) else [Y]
  end.

Lemma firsts_ok n : forall Y x, In x (firsts n Y) -> first_spec rules Y x.
Proof.
  induction n as [|n IH]; intros Y x H; cbn in H; [contradiction|]. destruct (nonterm_b rules Y) eqn:E.
  - apply bs_of_list_in, in_flat_map in H as ([[A i] rhs] & Hp & H). destruct (eqb_spec A Y) as [->|]; [|contradiction]. destruct rhs as [|X rhs]; [contradiction|].
    apply IH in H as [Hx (v & D)]. split; auto. apply prods_in in Hp; auto. exists (v ++ rhs). eapply derives_trans; [eapply derives_prod; eauto|].
    change (X :: rhs) with ([X] ++ rhs). change (x :: v ++ rhs) with ((x :: v) ++ rhs). apply derives_app; auto. constructor.
  - destruct H as [<-|[]]. apply nonterm_b_false in E. split; auto. exists []. constructor.
Qed.

(** state, rule, production, before and after the dot, lookahead *)
Definition fact : Type := nat * T * nat * list T * list T * T.
Definition holds (f : fact) : Prop := let '(q, A, i, u, v, x) := f in passed q A i u v x.

Definition dests (q : nat) (X : T) : list nat :=
  match nth_error (t_actions t) q with
  | Some row => match bm_get X row with Some (Shift n) => [n] | Some (Goto n) => [n] | _ => [] end
  | None => []
  end.
Lemma dests_ok q X n : In n (dests q X) -> moves t q X n.
Proof.
  unfold dests. destruct (nth_error (t_actions t) q) as [row|] eqn:E; [|contradiction]. destruct (bm_get X row) as [a|] eqn:E1; [|contradiction].
  intros H. exists row, a. split; auto. split; auto. destruct a; cbn in H; try contradiction; destruct H as [->|[]]; [left|right]; constructor.
Qed.

(** all items with their dots *)
Definition items : list (nat * position T) :=
  flat_map (fun qr => map (fun p => (fst qr, p)) (snd qr)) (combine (seq 0 (length (t_states t))) (t_states t)).

Lemma combine_seq {X} (l : list X) : forall k q y, In (q, y) (combine (seq k (length l)) l) -> k <= q /\ nth_error l (q - k) = Some y.
Proof.
  induction l as [|z l IH]; intros k q y H; cbn in H; [contradiction|]. destruct H as [[= <- <-]|H].
  - rewrite Nat.sub_diag. auto.
  - apply IH in H as [H1 H2]. split; [lia|]. replace (q - k) with (S (q - S k)) by lia. exact H2.
Qed.

Lemma items_ok q p : In (q, p) items -> exists row, nth_error (t_states t) q = Some row /\ In p row.
Proof.
  intros H. apply in_flat_map in H as ([q' row] & H & H2). apply in_map_iff in H2 as (p' & [= <- <-] & H2).
  apply combine_seq in H as [_ H]. rewrite Nat.sub_0_r in H. eauto.
Qed.

Definition start_facts : list fact :=
  flat_map (fun '(q, p) => if (q =? 0) && eqb (p_rule p) start && (p_point p =? 0) then [(0, start, snd (p_seq p), [], fst (p_seq p), eof)] else []) items.

Definition first_facts (n : nat) : list fact :=
  flat_map (fun '(q, p) => match skipn (p_point p) (fst (p_seq p)) with
    | B :: Y :: _ => flat_map (fun '(A, j, rhs) => if eqb A B then map (fun x => (q, B, j, [], rhs, x)) (firsts n Y) else []) (prods rules)
    | _ => []
    end) items.

Definition more (f : fact) : list fact :=
  let '(q, A, i, u, v, x) := f in
  match v with
  | X :: v' => map (fun n => (n, A, i, u ++ [X], v', x)) (dests q X) ++
     match v' with [] => flat_map (fun '(C, j, rhs) => if eqb C X then [(q, X, j, [], rhs, x)] else []) (prods rules) | _ => [] end
  | [] => []
  end.

Definition same_fact (f h : fact) : bool :=
  let '(q, A, i, u, v, x) := f in let '(q', A', i', u', v', x') := h in
  if i =? i' then if eqb x x' then if eqb A A' then if q =? q' then if eqb u u' then eqb v v' else false else false else false else false else false.

Lemma same_fact_eq f h : same_fact f h = true -> f = h.
Proof.
  destruct f as [[[[[q A] i] u] v] x], h as [[[[[q' A'] i'] u'] v'] x']. cbn. destruct (Nat.eqb_spec i i') as [<-|]; [|discriminate]. destruct (eqb_spec x x') as [<-|]; [|discriminate].
  destruct (eqb_spec A A') as [<-|]; [|discriminate]. destruct (Nat.eqb_spec q q') as [<-|]; [|discriminate]. destruct (eqb_spec u u') as [<-|]; [|discriminate].
  intros H. apply eqb_eq in H. congruence.
Qed.

(** facts by state *)
Definition state_of (f : fact) : nat := let '(q, _, _, _, _, _) := f in q.
Fixpoint put (q : nat) (f : fact) (acc : list (list fact)) : list (list fact) :=
  match acc, q with
  | [], _ => []
  | l :: acc, 0 => (f :: l) :: acc
  | l :: acc, S q => l :: put q f acc
  end.
Definition known (f : fact) (acc : list (list fact)) : bool := existsb (same_fact f) (nth (state_of f) acc []).

(** the new ones of [fs], and all *)
Fixpoint add (fs news : list fact) (acc : list (list fact)) : list fact * list (list fact) :=
  match fs with [] => (news, acc) | f :: fs => if known f acc then add fs news acc else add fs (f :: news) (put (state_of f) f acc) end.

Fixpoint rounds (n : nat) (news : list fact) (acc : list (list fact)) : list (list fact) :=
  match n with 0 => acc | S n => match news with [] => acc | _ => let '(news', acc') := add (flat_map more news) [] acc in rounds n news' acc' end end.

Definition ground (n m : nat) : list (list fact) :=
  let '(news, acc) := add (start_facts ++ first_facts m) [] (map (fun _ => []) (t_states t)) in rounds n news acc.

Definition all (acc : list (list fact)) (f : fact) : Prop := exists l, In l acc /\ In f l.

Lemma put_all q f acc h : all (put q f acc) h -> h = f \/ all acc h.
Proof.
  revert q. induction acc as [|l acc IH]; intros [|q] (l' & H1 & H2); cbn in H1; try contradiction.
  - destruct H1 as [<-|H1].
    + destruct H2 as [<-|H2]; auto. right. exists l. split; auto. now left.
    + right. exists l'. split; auto. now right.
  - destruct H1 as [<-|H1].
    + right. exists l. split; auto. now left.
    + destruct (IH q) as [H|(l2 & H3 & H4)]; [exists l'; auto|auto|]. right. exists l2. split; auto. now right.
Qed.

Lemma known_all f acc : known f acc = true -> all acc f.
Proof.
  unfold known. intros H. apply existsb_exists in H as (h & H & E). apply same_fact_eq in E as <-. exists (nth (state_of f) acc []). split; auto.
  destruct (nth_in_or_default (state_of f) acc []) as [H0|H0]; auto. rewrite H0 in H. contradiction.
Qed.

Lemma more_ok f h : holds f -> In h (more f) -> holds h.
Proof.
  destruct f as [[[[[q A] i] u] [|X v]] x]; cbn; [contradiction|]. intros H Hin. apply in_app_iff in Hin as [Hin|Hin].
  - apply in_map_iff in Hin as (n & <- & Hn). cbn. eapply pass_move; eauto. now apply dests_ok.
  - destruct v; [|contradiction]. apply in_flat_map in Hin as ([[C j] rhs] & Hp & Hin). destruct (eqb_spec C X) as [->|]; [|contradiction].
    destruct Hin as [<-|[]]. cbn. eapply pass_last; eauto. now apply prods_in.
Qed.

Lemma add_ok fs : forall news acc news' acc', add fs news acc = (news', acc') -> (forall f, In f fs \/ In f news \/ all acc f -> holds f) ->
  forall h, In h news' \/ all acc' h -> holds h.
Proof.
  induction fs as [|f fs IH]; intros news acc news' acc' E H h Hh; cbn in E; [injection E as <- <-; apply H; tauto|]. destruct (known f acc).
  - eapply IH; eauto. intros f0 H0. apply H. simpl. tauto.
  - eapply IH; eauto. intros f0 H0. apply H. simpl in *. destruct H0 as [H0|[[H0|H0]|H0]]; auto. apply put_all in H0 as [H0|H0]; auto.
Qed.

Lemma rounds_ok n : forall news acc, (forall f, In f news \/ all acc f -> holds f) -> forall f, all (rounds n news acc) f -> holds f.
Proof.
  induction n as [|n IH]; intros news acc H f Hf; cbn [rounds] in Hf; [auto|]. destruct news as [|f0 news]; [auto|].
  destruct (add (flat_map more (f0 :: news)) [] acc) as [news' acc'] eqn:E. eapply IH; [|exact Hf].
  intros h Hh. eapply add_ok; [exact E| |exact Hh]. intros f1 [H1|[[]|H1]]; [|auto].
  apply (in_flat_map more (f0 :: news)) in H1 as (f2 & H2 & H1). eapply more_ok; eauto.
Qed.

Definition valid_pos (p : position T) : Prop := p_point p <= length (fst (p_seq p)).

Lemma ground_ok n m f : (forall q p, In (q, p) items -> valid_pos p) -> all (ground n m) f -> holds f.
Proof.
  intros HV. unfold ground. destruct (add (start_facts ++ first_facts m) [] (map (fun _ => []) (t_states t))) as [news acc] eqn:Ea. apply rounds_ok. eapply add_ok; [exact Ea|].
  intros h [H|[[]|(l0 & H & Hl)]].
  2: { apply in_map_iff in H as (st & <- & _). contradiction. }
  apply in_app_iff in H as [H|H].
  - apply in_flat_map in H as ([q p] & Hi & H). destruct (Nat.eqb_spec q 0) as [->|]; [|contradiction].
    destruct (eqb_spec (p_rule p) start) as [E|]; [|contradiction]. destruct (Nat.eqb_spec (p_point p) 0) as [E0|]; [|contradiction].
    destruct H as [<-|[]]. cbn. apply pass_start. apply items_ok in Hi as (row & E1 & Hin). exists row, p. cbn. destruct (p_seq p). auto 6.
  - apply in_flat_map in H as ([q p] & Hi & H). pose proof (HV _ _ Hi) as Hv. destruct (skipn (p_point p) (fst (p_seq p))) as [|B [|Y v]] eqn:E; try contradiction.
    apply in_flat_map in H as ([[A j] rhs] & Hp & H). destruct (eqb_spec A B) as [->|]; [|contradiction]. apply in_map_iff in H as (x & <- & Hx). cbn.
    apply items_ok in Hi as (row & E1 & Hin).
    apply (pass_first _ _ _ _ q (p_rule p) (snd (p_seq p)) (firstn (p_point p) (fst (p_seq p))) B Y v); [|now apply prods_in|eapply firsts_ok; eauto].
    exists row, p. rewrite <- E, firstn_skipn, firstn_length_le by exact Hv. destruct (p_seq p). auto 6.
Qed.

Definition grounded_b (n m : nat) : bool :=
  forallb (fun '(_, p) => p_point p <=? length (fst (p_seq p))) items &&
  let acc := ground n m in
  forallb (fun '(q, p) => forallb (fun x => known (q, p_rule p, snd (p_seq p), firstn (p_point p) (fst (p_seq p)), skipn (p_point p) (fst (p_seq p)), x) acc) (p_look p)) items.

Lemma in_items q row p : nth_error (t_states t) q = Some row -> In p row -> In (q, p) items.
Proof.
  intros E H. apply in_flat_map. exists (q, row). split; [|apply in_map_iff; eauto].
  assert (G : forall (l : list (state T)) k q, nth_error l q = Some row -> In (k + q, row) (combine (seq k (length l)) l)).
  { induction l as [|z l IH]; intros k [|q0] E0; try discriminate; cbn in *.
    - injection E0 as ->. rewrite Nat.add_0_r. now left.
    - right. specialize (IH (S k) q0 E0). now rewrite Nat.add_succ_r. }
  apply (G _ 0 _ E).
Qed.

Lemma grounded_ok n m : grounded_b n m = true -> grounded rules start eof t.
Proof.
  intros H. apply andb_true_iff in H as [H1 H2]. rewrite forallb_forall in H1, H2. cbv zeta in H2.
  intros q A i u v x (row & p & E & Hin & E1 & E2 & E3 & Hx). pose proof (in_items _ _ _ E Hin) as Hi. specialize (H2 _ Hi). cbn beta iota in H2.
  rewrite forallb_forall in H2. specialize (H2 _ Hx). apply known_all in H2 as Hf.
  apply ground_ok in Hf.
  - cbn [holds] in Hf. rewrite E1, E2, E3 in Hf. cbn [fst snd] in Hf. now rewrite firstn_app, skipn_app, firstn_all, skipn_all, Nat.sub_diag, app_nil_r in Hf.
  - intros q' p' Hi'. specialize (H1 _ Hi'). now apply Nat.leb_le in H1.
Qed.
End PassB.
