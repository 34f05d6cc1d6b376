(** Concrete cases for C128 *)
From Coq Require Import List Bool Arith Lia String.
From Verif Require Import BTree Model Strings Grammars Spec SpecP Interface Check Examples Refute Refute2 Work WorkStates Expo.
Import ListNotations.
Local Open Scope string_scope.
Local Open Scope list_scope.
Local Notation length := List.length.

(** sums: three nonterminals; from the first item Slr's closure takes 3 rounds, Clr's 4 *)
Lemma calc_rounds : length calc = 3 /\ sorted [g_basis (calc_g true)] /\ prop_closure (closure_fn SLR calc_t0) 2 [g_basis (calc_g true)] = Fuel /\
  prop_closure (closure_fn CLR calc_t0) 3 [g_basis (calc_g true)] = Fuel /\
  (exists c, prop_closure (closure_fn SLR calc_t0) 3 [g_basis (calc_g true)] = Val c /\ length c = 5) /\
  exists c, prop_closure (closure_fn CLR calc_t0) 4 [g_basis (calc_g true)] = Val c /\ length c = 9.
Proof. split; [check|]. split; [constructor; [intros y []|constructor]|]. split; [check|]. split; [check|]. split; (eexists; split; [vm_compute; reflexivity|check]). Qed.

(** 9 states in 10 turns with Slr, 16 in 17 with Clr *)
Lemma calc_turns : with_table SLR true 9 calc_t0 = Fuel /\ with_table SLR true 10 calc_t0 = Val (calc_tab SLR) /\
  with_table CLR true 16 calc_t0 = Fuel /\ with_table CLR true 17 calc_t0 = Val (calc_tab CLR).
Proof. repeat split; check. Qed.

(** places within the right-hand sides: 9, more than enough for the 9 states *)
Definition calc_places : list (string * nat * nat) :=
  [("Z", 0, 1); ("E", 0, 1); ("E", 0, 2); ("E", 0, 3); ("E", 1, 1); ("T", 0, 1); ("T", 1, 1); ("T", 1, 2); ("T", 1, 3)].
Lemma calc_places_all : forall A i rhs p, prod_at calc A i rhs -> 0 < p <= length rhs -> In (A, i, p) calc_places.
Proof.
  assert (forall_prods : forall A i rhs, prod_at calc A i rhs -> In (A, i, length rhs) [("Z", 0, 1); ("E", 0, 3); ("E", 1, 1); ("T", 0, 1); ("T", 1, 3)]).
  { intros A i rhs (r & j & Hr & Hn). apply bm_get_in in Hr. vm_compute in Hr. repeat destruct Hr as [E|Hr]; try contradiction;
    injection E as <- <-; cbn [r_prods] in Hn; destruct i as [|[|i]]; cbn in Hn; try discriminate; try (destruct i; discriminate); injection Hn as <- <-; cbn; tauto. }
  intros A i rhs p H Hp. apply forall_prods in H. cbn in H. unfold calc_places.
  repeat destruct H as [E|H]; try contradiction; injection E as <- <- El; rewrite <- El in Hp; destruct p as [|[|[|[|p]]]]; try lia; cbn; tauto.
Qed.

Lemma expo_two : expo_list 2 = [(0, [[1]]); (1, [[3]; [6]]); (3, [[7; 3]; [5]]); (6, [[4; 6]; [8]])].
Proof. reflexivity. Qed.
