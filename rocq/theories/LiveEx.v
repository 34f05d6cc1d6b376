(** A cell of an Slr table no sentence needs (C127) *)
From Coq Require Import List Bool Arith String Lia.
From Verif Require Import BTree Model Strings Spec SpecP Interface Check Examples Refute Refute2 ValidSpec PassB LR Wrap Export LiveSpec Live.
Import ListNotations.
Local Open Scope string_scope.
Local Open Scope list_scope.

(** Z -> S; S -> A a | b A c | d e; A -> d *)
Definition spare := grammar_map [("Z", [["S"]]); ("S", [["A"; "a"]; ["b"; "A"; "c"]; ["d"; "e"]]); ("A", [["d"]])].
Definition spare_g := gof "Z" spare (calc_g true).
Definition spare_t k := tab k true 60 spare_g.

Lemma spare_facts : (wf_rules spare /\ grammar_new true "Z" spare "$" = Val spare_g /\ (forall k, makes k true spare_g (spare_t k)) /\ term spare "$") /\
  start_fresh spare "Z" /\ single_start spare "Z" /\ productive spare /\ covers spare (empty_map spare_g) /\ (forall k, conflicts (t_actions (spare_t k)) = []) /\
  carries (spare_t LALR) /\ grounded spare "Z" "$" (spare_t LALR).
Proof.
  assert (wf_rules spare) as W by facts. split.
  { split; auto. split; [check|]. split; [intros k; apply tab_makes; destruct k; check|facts]. }
  split; [facts|]. split; [facts|]. split; [apply (productive_ok spare W ["A"; "S"; "Z"]); check|]. split; [apply covers_ok; [auto|check]|].
  split; [intros k; destruct k; check|]. split; [apply carries_ok; check|]. apply (grounded_ok spare "Z" "$" _ W 20 8). check.
Qed.

(** the table with a cell left out, by computation *)
Fixpoint cut_rows (q : nat) (x : string) (acts : acttable string) : acttable string :=
  match acts, q with
  | [], _ => []
  | row :: acts, 0 => bm_remove x row :: acts
  | row :: acts, S q => row :: cut_rows q x acts
  end.
Definition cut (q : nat) (x : string) (t : tabler string) : tabler string :=
  mkTabler (t_grammar t) (t_first t) (t_follow t) (cut_rows q x (t_actions t)) (t_states t) (t_kernels t).
Lemma cut_rows_length q x acts : List.length (cut_rows q x acts) = List.length acts.
Proof. revert q. induction acts as [|row acts IH]; intros [|q]; cbn [cut_rows List.length]; auto. Qed.
Lemma cut_rows_get q x acts p row : nth_error acts p = Some row -> exists row', nth_error (cut_rows q x acts) p = Some row' /\
  forall y, bm_get y row' = if (Nat.eqb p q && eqb y x)%bool then None else bm_get y row.
Proof.
  revert q p. induction acts as [|r acts IH]; intros q [|p] E; try discriminate; destruct q as [|q]; cbn [cut_rows nth_error] in *.
  - inversion E; subst. eexists. split; [reflexivity|]. intros y. cbn [Nat.eqb andb]. apply bm_get_remove.
  - inversion E; subst. eexists. split; [reflexivity|]. auto.
  - exists row. split; auto.
  - destruct (IH q p E) as (row' & E1 & H). exists row'. split; auto.
Qed.
Lemma cut_leaves q x t : leaves_out q x t (cut q x t).
Proof. split; [reflexivity|]. split; [apply cut_rows_length|]. intros p row. apply cut_rows_get. Qed.

(** the moves of a table that lead to [n] *)
Fixpoint leads (n : nat) (a : action string) : bool :=
  match a with
  | Shift m | Goto m => Nat.eqb m n
  | Conflict a b => leads n a || leads n b
  | _ => false
  end.
Fixpoint into_from (n q : nat) (acts : acttable string) : list (nat * string) :=
  match acts with
  | [] => []
  | row :: acts => map (fun c => (q, fst c)) (filter (fun c => leads n (snd c)) row) ++ into_from n (S q) acts
  end.
Lemma leads_in n a b : inside a b -> a = Shift n \/ a = Goto n -> leads n b = true.
Proof.
  intros H K. revert H. induction b as [r|m|m| |b1 IH1 b2 IH2]; cbn [inside leads]; intros H; try (destruct K as [-> | ->]; inversion H; subst; apply Nat.eqb_refl).
  destruct H as [H|H]; [rewrite IH1|rewrite IH2, orb_true_r]; auto.
Qed.
Lemma into_from_in n acts : forall q0 q row x a, nth_error acts q = Some row -> In (x, a) row -> leads n a = true -> In (q0 + q, x) (into_from n q0 acts).
Proof.
  induction acts as [|r acts IH]; intros q0 [|q] row x a E H L; try discriminate; cbn [into_from nth_error] in *; apply in_or_app.
  - inversion E; subst. left. rewrite Nat.add_0_r. apply (in_map (fun c => (q0, fst c)) _ (x, a)). apply filter_In. auto.
  - right. replace (q0 + S q) with (S q0 + q) by lia. eauto.
Qed.
Lemma moves_into t q x n : moves t q x n -> In (q, x) (into_from n 0 (t_actions t)).
Proof.
  intros (row & a & E & G & H). apply (into_from_in n (t_actions t) 0 q row x a E); [now apply bm_get_in|].
  destruct H as [H|H]; eapply leads_in; eauto.
Qed.

Lemma only_way t n x qs xs : into_from n 0 (t_actions t) = [(0, x)] -> into_from 0 0 (t_actions t) = [] -> n <> 0 ->
  stack_path t (n :: qs) xs -> qs = [0] /\ xs = [x].
Proof.
  intros I I0 N P. inversion P as [|q qs' y ys n' P1 M1 E1 E2]; subst; [now destruct N|].
  apply moves_into in M1. rewrite I in M1. destruct M1 as [M1|[]]. inversion M1; subst.
  inversion P1 as [|q0 qs0 x0 xs0 n0 P2 M2]; subst; auto. apply moves_into in M2. rewrite I0 in M2. destruct M2.
Qed.
Lemma first_token {M} rules (maps : reductmap string M) its used x : map tk_ty its = [x] -> term rules x ->
  evals_seq rules maps (rev (map tk_ty its)) used (rev its) -> exists it, tk_ty it = x /\ used = [it].
Proof.
  intros E Hx. destruct its as [|it [|it2 its]]; try discriminate. cbn [map rev app] in *. injection E as <-. intros V.
  inversion V as [|X Xs w1 w2 it0 its0 V1 V2]; subst. inversion V2; subst. rewrite app_nil_r in *. exists it. split; auto.
  inversion V1; subst; auto. destruct Hx. match goal with H : prod_at _ _ _ _ |- _ => destruct H as (r & k & E & _) end. now exists r.
Qed.

(** state 4 of the Slr table (S -> d . e, A -> d .) is entered at the beginning of the input only *)
Lemma spare_into : into_from 4 0 (t_actions (spare_t SLR)) = [(0, "d")] /\ into_from 0 0 (t_actions (spare_t SLR)) = [].
Proof. split; check. Qed.

Lemma spare_stuck tok1 tok2 rest : tk_ty tok1 = "d" -> tk_ty tok2 = "c" ->
  exists e, parses (spare_t SLR) (tok1 :: tok2 :: rest) (empty_map spare_g) (PErr e).
Proof.
  destruct tok1 as [m1 x1], tok2 as [m2 x2]. cbn [tk_ty]. intros -> ->. eexists. exists 6. vm_compute. reflexivity.
Qed.

Lemma spare_short tok1 : tk_ty tok1 = "d" -> exists e, parses (spare_t SLR) [tok1] (empty_map spare_g) (PErr e).
Proof. destruct tok1 as [m1 x1]. cbn [tk_ty]. intros ->. eexists. exists 6. vm_compute. reflexivity. Qed.

Lemma spare_dead : (exists row, nth_error (t_actions (spare_t SLR)) 4 = Some row /\ exists pr, bm_get "c" row = Some (Reduce "A" pr)) /\
  forall input d, sentence spare "Z" (map tk_ty input) -> reaches (spare_t SLR) input (empty_map spare_g) d -> d_top d = 4 -> lookahead d <> "c".
Proof.
  split; [eexists; split; [check|eexists; check]|]. intros input d Hs R Ht Hl.
  destruct spare_facts as ((W & Hg & Hm & He) & Hf & H1 & Hp & Hcov & Hc & _).
  destruct (reaches_stack _ _ _ _ _ W Hg (empty_map spare_g) _ _ (Hm SLR) He _ _ R (proj2 Hs)) as (P & Hh & used & Ei & Ev).
  destruct (clean_parses _ _ _ _ _ W Hg (empty_map spare_g) _ _ (Hm SLR) He Hcov input ltac:(left; discriminate) Hf H1 (Hc SLR) Hs) as (m & Hok).
  destruct spare_into as (I4 & I0).
  destruct (d_states d) as [|q qs]; cbn [hd_error] in Hh; [discriminate Hh|]. injection Hh as Hq. rewrite Hq, Ht in P.
  destruct (only_way _ _ _ _ _ I4 I0 ltac:(discriminate) P) as (_ & Ety).
  assert (term spare "d") as Hd by facts.
  destruct (first_token _ _ (d_items d) used "d" Ety Hd Ev) as (it & Hty & ->). cbn [app] in Ei.
  unfold lookahead in Hl. destruct (d_buffer d) as [|tok rest].
  - rewrite Ei in Hok. destruct (spare_short it Hty) as (e & He1).
    pose proof (proj2 (proj2 (deterministic true spare_g)) _ _ _ _ _ _ Hok He1) as K. discriminate K.
  - rewrite Ei in Hok. destruct (spare_stuck it tok rest Hty Hl) as (e & He1).
    pose proof (proj2 (proj2 (deterministic true spare_g)) _ _ _ _ _ _ Hok He1) as K. discriminate K.
Qed.
