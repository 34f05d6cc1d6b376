(** Concrete cases for C133 *)
From Coq Require Import List Bool Arith Lia String.
From Verif Require Import BTree Model Strings Grammars Spec SpecP Interface Check Examples Refute Refute2 WithinSpec.
Import ListNotations.
Local Open Scope string_scope.
Local Open Scope list_scope.
Local Notation length := List.length.

(** b c d is met first before x, and much later before the end of input, when all three of its states are there *)
Definition deep : rulemap string := grammar_map [("Z", [["S"]]); ("S", [["A"; "x"]; ["Q"]]); ("Q", [["p"; "R"]]); ("R", [["q"; "U"]]); ("U", [["r"; "A"]]); ("A", [["b"; "c"; "d"]])].
Definition deep_g : grammar string := gof "Z" deep (calc_g true).
Lemma deep_gE : grammar_new true "Z" deep "$" = Val deep_g. Proof. check. Qed.
Lemma deep_wf : wf_rules deep. Proof. facts. Qed.
Definition deep_t0s : {t | tabler_new true 20 deep_g = Val t}.
Proof. eexists. vm_compute. reflexivity. Defined.
Definition deep_t0 := proj1_sig deep_t0s.
Lemma deep_t0M : tabler_makes true deep_g deep_t0. Proof. exists 20. exact (proj2_sig deep_t0s). Qed.
Definition deep_t : tabler string := tab LALR true 60 deep_g.
Lemma deep_makes : makes LALR true deep_g deep_t. Proof. apply tab_makes. check. Qed.

Definition deep_places : list (string * nat * nat) :=
  [("Z", 0, 0); ("Z", 0, 1); ("S", 0, 0); ("S", 0, 1); ("S", 0, 2); ("S", 1, 0); ("S", 1, 1); ("Q", 0, 0); ("Q", 0, 1); ("Q", 0, 2);
   ("R", 0, 0); ("R", 0, 1); ("R", 0, 2); ("U", 0, 0); ("U", 0, 1); ("U", 0, 2); ("A", 0, 0); ("A", 0, 1); ("A", 0, 2); ("A", 0, 3)].
Lemma deep_prods A i rhs : prod_at deep A i rhs -> In (A, i, length rhs) [("Z", 0, 1); ("S", 0, 2); ("S", 1, 1); ("Q", 0, 2); ("R", 0, 2); ("U", 0, 2); ("A", 0, 3)].
Proof.
  intros (r & j & Hr & Hn). apply bm_get_in in Hr. vm_compute in Hr. repeat destruct Hr as [E|Hr]; try contradiction;
    injection E as <- <-; cbn [r_prods] in Hn; destruct i as [|[|i]]; cbn in Hn; try discriminate; try (destruct i; discriminate); injection Hn as <- <-; cbn; tauto.
Qed.
Lemma deep_short A i rhs : prod_at deep A i rhs -> length rhs <= 3.
Proof. intros H. apply deep_prods in H. cbn in H. repeat destruct H as [E|H]; try contradiction; injection E as <- <- El; rewrite <- El; lia. Qed.
Lemma deep_places_all A i rhs p : prod_at deep A i rhs -> p <= length rhs -> In (A, i, p) deep_places.
Proof.
  intros H Hp. apply deep_prods in H. cbn in H. unfold deep_places.
  repeat destruct H as [E|H]; try contradiction; injection E as <- <- El; rewrite <- El in Hp; destruct p as [|[|[|[|p]]]]; try lia; cbn; tauto.
Qed.

(** three nested calls, and no fewer *)
Lemma deep_within : length (t_states deep_t) = 14 /\ lalr_within true 20 2 100 deep_t0 = Fuel /\ lalr_within true 20 3 100 deep_t0 = Val deep_t.
Proof. repeat split; check. Qed.
(** 9 states in 11 turns: one of them is gone through twice *)
Lemma calc_within : lalr_within true 20 3 10 calc_t0 = Fuel /\ lalr_within true 20 3 11 calc_t0 = Val (calc_tab LALR) /\
  length (t_states (calc_tab LALR)) = 9 /\ with_table LALR true 10 calc_t0 = Fuel /\ with_table LALR true 11 calc_t0 = Val (calc_tab LALR).
Proof. repeat split; check. Qed.
