(** Concrete cases for C134 and the exact versions of C82, C83 and C103 *)
From Coq Require Import List Bool Arith Lia String.
From Verif Require Import BTree Model Show Strings Trace Grammars Spec SpecP Interface Check Examples Refute Refute2 Refute3 StatesSpec TextSpec Text TextEx ValidSpec UsedSpec.
Import ListNotations.
Local Open Scope string_scope.
Local Open Scope list_scope.
Local Notation length := List.length.

(** Z -> A | b; A -> a c; U -> A y | A y, in a release build: only Z -> A and A -> a c are met *)
Definition spare : rulemap string := grammar_map [("Z", [["A"]; ["b"]]); ("A", [["a"; "c"]]); ("U", [["A"; "y"]; ["A"; "y"]])].
Definition spare_g : grammar string := match grammar_new false "Z" spare "$" with Val g => g | _ => calc_g true end.
Lemma spare_gE : grammar_new false "Z" spare "$" = Val spare_g. Proof. check. Qed.
Lemma spare_wf : wf_rules spare. Proof. facts. Qed.
Definition spare_t (k : method) : tabler string := tab k false 60 spare_g.
Lemma spare_makes k : makes k false spare_g (spare_t k). Proof. apply tab_makes. destruct k; check. Qed.

Lemma spare_prods A i rhs : prod_at spare A i rhs ->
  In (A, i, rhs) [("Z", 0, ["A"]); ("Z", 1, ["b"]); ("A", 0, ["a"; "c"]); ("U", 0, ["A"; "y"]); ("U", 1, ["A"; "y"])].
Proof.
  intros (r & j & Hr & Hn). apply bm_get_in in Hr. vm_compute in Hr. repeat destruct Hr as [E|Hr]; try contradiction;
    injection E as <- <-; cbn [r_prods] in Hn; destruct i as [|[|i]]; cbn in Hn; try discriminate; try (destruct i; discriminate); injection Hn as <- <-; cbn; tauto.
Qed.
Lemma spare_met A i rhs : met spare "Z" A i rhs -> In (A, i, rhs) [("Z", 0, ["A"]); ("A", 0, ["a"; "c"])].
Proof.
  induction 1 as [rhs H|A i u B v j rhs _ IH H].
  - apply spare_prods in H. cbn in *. repeat destruct H as [E|H]; try contradiction; try discriminate E. injection E as <-. auto.
  - assert (B = "A" \/ B = "a" \/ B = "c") as HB.
    { cbn in IH. destruct IH as [E|[E|[]]]; injection E as <- <- E.
      - destruct u as [|x [|y u]]; [injection E as <- _; auto|discriminate E|discriminate E].
      - destruct u as [|x [|y [|z u]]]; [injection E as <- _; auto|injection E as _ <- _; auto|discriminate E|discriminate E]. }
    apply spare_prods in H. cbn in *. repeat destruct H as [E|H]; try contradiction; injection E as <- <- <-; auto;
      destruct HB as [HB|[HB|HB]]; discriminate HB.
Qed.
Lemma spare_twins : no_met_twins spare "Z" /\ ~ no_twins spare.
Proof.
  split.
  - intros A i j rhs H H'. apply spare_met in H, H'. cbn in *.
    repeat destruct H as [E|H]; try contradiction; injection E as <- <- <-; repeat destruct H' as [E'|H']; try contradiction; first [discriminate E'|congruence].
  - intros H. assert (0 = 1) as E; [|discriminate E]. apply (H "U" 0 1 ["A"; "y"]); eexists; eexists; split; check.
Qed.
Lemma spare_A : met spare "Z" "A" 0 ["a"; "c"].
Proof. apply met_next with (A := "Z") (i := 0) (u := []) (v := []); [constructor|]; eexists; eexists; split; check. Qed.
Lemma spare_items k : item_in (spare_t k) 2 "A" 0 ["a"] ["c"].
Proof.
  destruct k; (eexists; eexists; split; [check|]; split; [left; reflexivity|]; repeat split).
Qed.

(** [spare]: Slr reduces A -> a c before y as well, the others do so before the end of the input alone *)
Lemma spare_productive : productive spare. Proof. apply (productive_ok spare spare_wf ["A"; "U"; "Z"]); check. Qed.
Lemma spare_carries : carries (spare_t LALR). Proof. apply carries_ok. check. Qed.
Lemma spare_y : exists row, nth_error (t_actions (spare_t SLR)) 3 = Some row /\ bm_get "y" row = Some (Reduce "A" (["a"; "c"], 0)).
Proof. eexists. split; check. Qed.

(** calc: T -> n is met, and + follows it *)
Lemma calc_T : met calc "Z" "T" 0 ["n"] /\ follow_rules calc "Z" "$" "T" "+".
Proof.
  split.
  - apply met_next with (A := "E") (i := 1) (u := []) (v := []); [|eexists; eexists; split; check].
    apply met_next with (A := "Z") (i := 0) (u := []) (v := []); [constructor|]; eexists; eexists; split; check.
  - apply fr_last with (B := "E") (i := 1) (u := []); [eexists; eexists; split; check|eexists; check|].
    apply fr_first with (B := "E") (i := 0) (u := []) (Y := "+") (v := ["T"]); [eexists; eexists; split; check|eexists; check|].
    split; [facts|]. exists []. constructor.
Qed.

(** Z -> a Z b | A; A -> c: the outermost Z is Z -> a Z b, so that A -> c is before b always *)
Definition inner : rulemap string := grammar_map [("Z", [["a"; "Z"; "b"]; ["A"]]); ("A", [["c"]])].
Definition inner_g : grammar string := match grammar_new false "Z" inner "$" with Val g => g | _ => calc_g true end.
Lemma inner_gE : grammar_new false "Z" inner "$" = Val inner_g. Proof. check. Qed.
Lemma inner_wf : wf_rules inner. Proof. facts. Qed.
Definition inner_t (k : method) : tabler string := tab k false 60 inner_g.
Lemma inner_makes k : makes k false inner_g (inner_t k). Proof. apply tab_makes. destruct k; check. Qed.
Lemma inner_productive : productive inner. Proof. apply (productive_ok inner inner_wf ["A"; "Z"]); check. Qed.
Lemma inner_carries : carries (inner_t LALR). Proof. apply carries_ok. check. Qed.
Lemma inner_prods A i rhs : prod_at inner A i rhs -> In (A, i, rhs) [("Z", 0, ["a"; "Z"; "b"]); ("Z", 1, ["A"]); ("A", 0, ["c"])].
Proof.
  intros (r & j & Hr & Hn). apply bm_get_in in Hr. vm_compute in Hr. repeat destruct Hr as [E|Hr]; try contradiction;
    injection E as <- <-; cbn [r_prods] in Hn; destruct i as [|[|i]]; cbn in Hn; try discriminate; try (destruct i; discriminate); injection Hn as <- <-; cbn; tauto.
Qed.
Lemma inner_b : met_look inner "Z" "$" "A" 0 ["c"] "b".
Proof.
  apply met_last with (A := "Z") (i := 1) (u := []); [|eexists; eexists; split; check].
  apply met_first with (A := "Z") (i := 0) (u := ["a"]) (Y := "b") (v := []); [constructor; eexists; eexists; split; check| |eexists; eexists; split; check].
  split; [facts|]. exists []. constructor.
Qed.
Lemma inner_only A i rhs x : met_look inner "Z" "$" A i rhs x -> A = "Z" /\ i = 0 \/ x = "b".
Proof.
  induction 1 as [rhs H|A i u B Y v j rhs x HM HF Hr|A i u B j rhs x HM IH Hr]; auto.
  - right. assert (prod_at inner A i (u ++ B :: Y :: v)) as HP by (inversion HM; auto). clear HM. apply inner_prods in HP. rename HP into HM. apply inner_prods in Hr. cbn in *. repeat destruct HM as [E|HM]; try contradiction; injection E as <- <- E.
    + destruct u as [|? [|? [|? [|? u]]]]; cbn in E; try discriminate E; injection E; intros; subst; repeat destruct Hr as [E'|Hr]; try contradiction; try discriminate E';
        (apply first_term in HF; [exact HF|facts]).
    + destruct u as [|? [|? u]]; discriminate E.
    + destruct u as [|? [|? u]]; discriminate E.
  - destruct IH as [[ -> -> ]| -> ]; auto. assert (prod_at inner "Z" 0 (u ++ [B])) as HP by (inversion HM; auto). clear HM. apply inner_prods in HP. rename HP into HM. apply inner_prods in Hr. cbn in *. repeat destruct HM as [E|HM]; try contradiction; try discriminate E. injection E as E.
    destruct u as [|? [|? [|? [|? u]]]]; cbn in E; try discriminate E; injection E; intros; subst; repeat destruct Hr as [E'|Hr]; try contradiction; try discriminate E'.
Qed.
Lemma inner_A x : met_look inner "Z" "$" "A" 0 ["c"] x -> x = "b".
Proof. intros H. apply inner_only in H as [[E _]|H]; [discriminate E|exact H]. Qed.
Lemma inner_eof : term inner "$". Proof. facts. Qed.

(** Z -> S; S -> a | a *)
Lemma twin_makes k : makes k true twin_g (tab k true 60 twin_g). Proof. apply tab_makes. destruct k; check. Qed.
Lemma twin_base : wf_rules twin /\ grammar_new true "Z" twin "$" = Val twin_g. Proof. split; [facts|check]. Qed.
Lemma twin_met : ~ no_met_twins twin "Z".
Proof.
  intros H. assert (0 = 1) as E; [|discriminate E].
  apply (H "S" 0 1 ["a"]); (apply met_next with (A := "Z") (i := 0) (u := []) (v := []); [constructor|]; eexists; eexists; split; check).
Qed.

(** [shrink] has two equal rows, and no two once they are one; [shrink2] then still has *)
Definition shrink_r : tabler string := match reduce_equals true shrink_t with Val t => t | _ => shrink_t end.
Lemma shrink_rE : reduce_equals true shrink_t = Val shrink_r. Proof. check. Qed.
Definition row_dec : forall x y : bmap string (action string), {x = y} + {x <> y}.
Proof. repeat decide equality. Defined.
Lemma alone_ok l : alone row_dec l = true -> NoDup l.
Proof. unfold alone. intros H. apply Nat.eqb_eq in H. apply NoDup_incl_NoDup with (nodup row_dec l); [apply NoDup_nodup|lia|]. intros x. apply nodup_In. Qed.
Lemma alone_not l : alone row_dec l = false -> ~ NoDup l.
Proof. unfold alone. intros H N. apply (nodup_fixed_point row_dec) in N. rewrite N, Nat.eqb_refl in H. discriminate. Qed.
Lemma shrink_rows : ~ NoDup (t_actions shrink_t) /\ NoDup (t_actions shrink_r).
Proof. split; [apply alone_not; check|apply alone_ok; check]. Qed.
