(** Concrete cases for C130 *)
From Coq Require Import List Bool Arith Lia String.
From Verif Require Import BTree Model Base Strings Grammars Spec SpecP Interface FirstFollow Check Examples Refute Refute2 LR1Spec ValidSpec Valid CanonSpec ClrStates WorkEx.
Import ListNotations.
Local Open Scope string_scope.
Local Open Scope list_scope.
Local Notation length := List.length.

(** S -> x A b | x A c | y A B; B -> b | c; A -> a: after x a the item A -> a . comes with b and with c, after y a with what B begins with *)
Definition twin := grammar_map [("Z", [["S"]]); ("S", [["x"; "A"; "b"]; ["x"; "A"; "c"]; ["y"; "A"; "B"]]); ("B", [["b"]; ["c"]]); ("A", [["a"]])].
Definition twin_g := gof "Z" twin (calc_g true).
Definition twin_t := tab CLR true 60 twin_g.
Lemma twin_facts : wf_rules twin /\ grammar_new true "Z" twin "$" = Val twin_g /\ makes CLR true twin_g twin_t /\ term twin "$".
Proof. split; [facts|]. split; [check|]. split; [apply tab_makes; check|facts]. Qed.
Lemma twin_productive : productive twin.
Proof. apply (productive_ok twin (proj1 twin_facts) ["A"; "B"; "S"; "Z"]). check. Qed.

Lemma same_half (t : tabler string) q q' r r' : nth_error (t_states t) q = Some r -> nth_error (t_states t) q' = Some r' ->
  (forall p, In p r -> exists p', In p' r' /\ p_rule p' = p_rule p /\ p_seq p' = p_seq p /\ p_point p' = p_point p) ->
  (forall p x, In p r -> In x (p_look p) -> exists p', In p' r' /\ p_rule p' = p_rule p /\ p_seq p' = p_seq p /\ p_point p' = p_point p /\ In x (p_look p')) ->
  (forall A i u v, item_in t q A i u v -> item_in t q' A i u v) /\ (forall A i u v x, item_look t q A i u v x -> item_look t q' A i u v x).
Proof.
  intros E E' H1 H2. split.
  - intros A i u v (row & p & Er & Hp & H). assert (row = r) as -> by congruence. destruct (H1 p Hp) as (p' & Hp' & E1 & E2 & E3).
    exists r', p'. rewrite E1, E2, E3. auto.
  - intros A i u v x (row & p & Er & Hp & H3 & H4 & H5 & Hx). assert (row = r) as -> by congruence. destruct (H2 p x Hp Hx) as (p' & Hp' & E1 & E2 & E3 & Hx').
    exists r', p'. rewrite E1, E2, E3. auto 8.
Qed.

Lemma twin_same : same_lr1 twin_t 5 7.
Proof.
  assert (nth_error (t_states twin_t) 5 = Some [mkPos "A" (["a"], 0) 1 ["b"]; mkPos "A" (["a"], 0) 1 ["c"]]) as E5 by check.
  assert (nth_error (t_states twin_t) 7 = Some [mkPos "A" (["a"], 0) 1 ["b"; "c"]]) as E7 by check.
  destruct (same_half _ _ _ _ _ E5 E7) as [H1 H2].
  { intros p [<-|[<-|[]]]; (eexists; split; [now left|auto]). }
  { intros p x [<-|[<-|[]]] [<-|[]]; (eexists; split; [now left|cbn; auto 6]). }
  destruct (same_half _ _ _ _ _ E7 E5) as [H3 H4].
  { intros p [<-|[]]; (eexists; split; [now left|auto]). }
  { intros p x [<-|[]] [<-|[<-|[]]]; [exists (mkPos "A" (["a"], 0) 1 ["b"])|exists (mkPos "A" (["a"], 0) 1 ["c"])]; cbn; auto 8. }
  split; intros; split; auto.
Qed.

Lemma step_move (t : tabler string) qs xs q X n row a : stack_path t (q :: qs) xs -> nth_error (t_actions t) q = Some row -> bm_get X row = Some a -> inside (Shift n) a \/ inside (Goto n) a ->
  stack_path t (n :: q :: qs) (X :: xs).
Proof. intros P E G H. constructor; auto. exists row, a. auto. Qed.
Ltac go := eapply step_move; [|vm_compute; reflexivity|vm_compute; reflexivity|cbn; auto].

Lemma twin_paths : stack_path twin_t [5; 2; 0] ["a"; "x"] /\ stack_path twin_t [7; 3; 0] ["a"; "y"].
Proof. split; go; go; constructor. Qed.

Lemma twin_entries : nth_error (t_actions twin_t) 5 = Some [("b", Reduce "A" (["a"], 0)); ("c", Reduce "A" (["a"], 0))] /\
  nth_error (t_actions twin_t) 7 = Some [("b", Reduce "A" (["a"], 0)); ("c", Reduce "A" (["a"], 0))].
Proof. split; check. Qed.

Lemma canonical_refuted : ~ (forall (dbg : bool) (start eof : string) (rules : rulemap string) (g : grammar string) (t : tabler string),
  wf_rules rules -> grammar_new dbg start rules eof = Val g -> makes CLR dbg g t -> term rules eof -> dbg = true -> productive rules -> conflicts (t_actions t) = [] ->
  forall q qs xs q' qs' xs', stack_path t (q :: qs) xs -> stack_path t (q' :: qs') xs' -> same_valid rules start eof (rev xs) (rev xs') -> q = q').
Proof.
  intros H. destruct twin_facts as (W & Hg & Hm & He), twin_paths as (P & P').
  assert (5 = 7); [|discriminate]. apply (H true "Z" "$" twin twin_g twin_t W Hg Hm He eq_refl twin_productive ltac:(check) _ _ _ _ _ _ P P').
  apply (same_prefixes _ _ _ _ _ W Hg _ Hm He (or_introl eq_refl) (or_introl eq_refl) twin_productive _ _ _ _ _ _ P P'), twin_same.
Qed.

(** nonterminals are followed by terminals only *)
Fixpoint pairs_ok (nt : string -> bool) (l : list string) : bool :=
  match l with B :: ((Y :: _) as l') => (negb (nt B) || negb (nt Y)) && pairs_ok nt l' | _ => true end.
Lemma pairs_in nt u B Y v : pairs_ok nt (u ++ B :: Y :: v) = true -> nt B = true -> nt Y = false.
Proof.
  induction u as [|X u IH].
  - cbn. intros H HB. rewrite HB in H. apply andb_prop in H as [H _]. now destruct (nt Y).
  - intros H. apply IH. destruct u; cbn [app pairs_ok] in *; apply andb_prop in H as [_ H]; exact H.
Qed.
Lemma calc_one_first : one_first calc.
Proof.
  intros A i u B Y v (r & j & Hr & Hn) HB.
  assert (forallb (fun e => forallb (fun p => pairs_ok (nonterm_b calc) (fst p)) (r_prods (snd e))) calc = true) as H by check.
  apply bm_get_in in Hr. rewrite forallb_forall in H. specialize (H _ Hr). rewrite forallb_forall in H. apply nth_error_In in Hn. specialize (H _ Hn).
  apply pairs_in in H; [|now apply nonterm_b_true]. exists Y. intros y. apply first_term. now apply nonterm_b_false.
Qed.

(** the three prefixes nothing, x, y: no two have the same valid items *)
Lemma three_paths : stack_path twin_t [0] [] /\ stack_path twin_t [2; 0] ["x"] /\ stack_path twin_t [3; 0] ["y"].
Proof. repeat split; repeat go; constructor. Qed.
Lemma three_differ : ~ same_lr1 twin_t 0 2 /\ ~ same_lr1 twin_t 0 3 /\ ~ same_lr1 twin_t 2 3.
Proof.
  assert (I0 : item_in twin_t 0 "Z" 0 [] ["S"]) by (eexists _, (mkPos "Z" (["S"], 0) 0 ["$"]); split; [vm_compute; reflexivity|]; cbn; auto 12).
  assert (I2 : item_in twin_t 2 "S" 0 ["x"] ["A"; "b"]) by (eexists _, (mkPos "S" (["x"; "A"; "b"], 0) 1 ["$"]); split; [vm_compute; reflexivity|]; cbn; auto 12).
  assert (N : forall q A i u v, existsb (fun p => eqb (p_rule p) A && Nat.eqb (snd (p_seq p)) i && Nat.eqb (p_point p) (length u)) (nth q (t_states twin_t) []) = false -> ~ item_in twin_t q A i u v).
  { intros q A i u v H (row & p & E & Hp & E1 & E2 & E3). assert (nth q (t_states twin_t) [] = row) as E' by (now apply nth_error_nth). rewrite E' in H. rewrite <- not_true_iff_false in H. apply H, existsb_exists.
    exists p. rewrite E1, E2, E3. cbn [snd]. rewrite eqb_refl, !Nat.eqb_refl. auto. }
  split; [|split]; intros [H _].
  - apply H in I0. revert I0. apply N. check.
  - apply H in I0. revert I0. apply N. check.
  - apply H in I2. revert I2. apply N. check.
Qed.
Lemma three_valid : (forall pre, In pre [[]; ["x"]; ["y"]] -> exists A i u v, valid_after twin "Z" pre A i u v) /\
  ForallOrdPairs (fun pre pre' => ~ same_valid twin "Z" "$" pre pre') [[]; ["x"]; ["y"]].
Proof.
  destruct twin_facts as (W & Hg & Hm & He), three_paths as (P0 & Px & Py), three_differ as (D1 & D2 & D3).
  pose proof (same_prefixes _ _ _ _ _ W Hg _ Hm He (or_introl eq_refl) (or_introl eq_refl) twin_productive) as SP.
  destruct (items_valid _ _ _ _ _ W Hg _ _ Hm (or_introl eq_refl) twin_productive) as (_ & V & _). split.
  - intros pre H. apply V. destruct H as [<-|[<-|[<-|[]]]]; eauto.
  - repeat constructor; intros H; [apply D1|apply D2|apply D3]; eapply SP; eauto.
Qed.

Lemma calc_sixteen : length (t_states (calc_tab CLR)) = 16. Proof. check. Qed.
Lemma calc_eight : length (g_symbols (calc_g true)) = 8. Proof. check. Qed.
