(** Concrete cases for C135 *)
From Coq Require Import List Bool Arith Lia String.
From Verif Require Import BTree Model Strings Grammars Spec SpecP Interface Check Examples Refute FewerSpec.
Import ListNotations.
Local Open Scope string_scope.
Local Open Scope list_scope.
Local Notation length := List.length.

Ltac alternatives H := let r := fresh in let j := fresh in let Hr := fresh in let Hn := fresh in let E := fresh in
  destruct H as (r & j & Hr & Hn); apply bm_get_in in Hr; vm_compute in Hr; repeat destruct Hr as [E|Hr]; try contradiction;
  injection E as <- <-; cbn [r_prods] in Hn;
  repeat match type of Hn with nth_error _ ?i = _ => is_var i; destruct i; cbn in Hn; try discriminate end; injection Hn as <- <-.

(** sums and differences with brackets; [sums1] has neither differences nor brackets *)
Definition sums2 : rulemap string := grammar_map [("Z", [["E"]]); ("E", [["E"; "+"; "T"]; ["E"; "-"; "T"]; ["T"]]); ("T", [["n"]; ["F"]]); ("F", [["("; "E"; ")"]])].
Definition sums1 : rulemap string := grammar_map [("Z", [["E"]]); ("E", [["E"; "+"; "T"]; ["T"]]); ("T", [["n"]])].
Definition sums2_g : grammar string := match grammar_new true "Z" sums2 "$" with Val g => g | _ => calc_g true end.
Definition sums1_g : grammar string := match grammar_new true "Z" sums1 "$" with Val g => g | _ => calc_g true end.
Lemma sums2_gE : grammar_new true "Z" sums2 "$" = Val sums2_g. Proof. check. Qed.
Lemma sums1_gE : grammar_new true "Z" sums1 "$" = Val sums1_g. Proof. check. Qed.
Lemma sums2_wf : wf_rules sums2. Proof. facts. Qed.
Lemma sums1_wf : wf_rules sums1. Proof. facts. Qed.
Definition sums2_t (k : method) : tabler string := tab k true 60 sums2_g.
Definition sums1_t (k : method) : tabler string := tab k true 60 sums1_g.
Lemma sums2_makes k : makes k true sums2_g (sums2_t k). Proof. apply tab_makes. destruct k; check. Qed.
Lemma sums1_makes k : makes k true sums1_g (sums1_t k). Proof. apply tab_makes. destruct k; check. Qed.
Lemma sums_eof : term sums1 "$" /\ term sums2 "$". Proof. split; facts. Qed.
Definition sums_f (A : string) (i : nat) : nat := if (A =? "E")%string then match i with 0 => 0 | S _ => S i end else i.
Lemma sums_by : fewer_by sums_f sums1 sums2 "Z".
Proof.
  constructor.
  - intros A i rhs H. alternatives H; (eexists; eexists; split; check).
  - intros A i j rhs rhs' H _ E. unfold sums_f in E. destruct (A =? "E")%string; destruct i, j; congruence.
  - reflexivity.
  - intros A i rhs x H Hx. alternatives H; cbn in Hx; repeat destruct Hx as [<-|Hx]; try contradiction;
      (split; intros N (r & E); first [vm_compute in E; discriminate E|apply N; eexists; check]).
Qed.
Lemma sums_fewer : fewer sums1 sums2 "Z". Proof. exists sums_f. exact sums_by. Qed.
Lemma sums2_clean k : conflicts (t_actions (sums2_t k)) = []. Proof. destruct k; check. Qed.

(** E -> E * E | E + E | n, and the same without products: the conflict before + after E + E is there in both *)
Definition amb2 : rulemap string := grammar_map [("Z", [["E"]]); ("E", [["E"; "*"; "E"]; ["E"; "+"; "E"]; ["n"]])].
Definition amb1 : rulemap string := grammar_map [("Z", [["E"]]); ("E", [["E"; "+"; "E"]; ["n"]])].
Definition amb2_g : grammar string := match grammar_new true "Z" amb2 "$" with Val g => g | _ => calc_g true end.
Definition amb1_g : grammar string := match grammar_new true "Z" amb1 "$" with Val g => g | _ => calc_g true end.
Lemma amb2_gE : grammar_new true "Z" amb2 "$" = Val amb2_g. Proof. check. Qed.
Lemma amb1_gE : grammar_new true "Z" amb1 "$" = Val amb1_g. Proof. check. Qed.
Lemma amb2_wf : wf_rules amb2. Proof. facts. Qed.
Lemma amb1_wf : wf_rules amb1. Proof. facts. Qed.
Definition amb2_t (k : method) : tabler string := tab k true 60 amb2_g.
Definition amb1_t (k : method) : tabler string := tab k true 60 amb1_g.
Lemma amb2_makes k : makes k true amb2_g (amb2_t k). Proof. apply tab_makes. destruct k; check. Qed.
Lemma amb1_makes k : makes k true amb1_g (amb1_t k). Proof. apply tab_makes. destruct k; check. Qed.
Lemma amb_eof : term amb1 "$" /\ term amb2 "$". Proof. split; facts. Qed.
Lemma amb_fewer : fewer amb1 amb2 "Z".
Proof.
  exists (fun A i => if (A =? "E")%string then S i else i). constructor.
  - intros A i rhs H. alternatives H; (eexists; eexists; split; check).
  - intros A i j rhs rhs' H _ E. destruct (A =? "E")%string; congruence.
  - reflexivity.
  - intros A i rhs x H Hx. alternatives H; cbn in Hx; repeat destruct Hx as [<-|Hx]; try contradiction;
      (split; intros N (r & E); first [vm_compute in E; discriminate E|apply N; eexists; check]).
Qed.

(** Lalr: Z -> S; S -> a A d | b B d | a B e | b A e; A -> c; B -> c is one of the grammars whose states get mixed up when merged. With S -> a c f
    as well, the states after "a c" and "b c" are no longer merged, and all is well. *)
Definition mix1 : rulemap string := grammar_map [("Z", [["S"]]); ("S", [["a"; "A"; "d"]; ["b"; "B"; "d"]; ["a"; "B"; "e"]; ["b"; "A"; "e"]]); ("A", [["c"]]); ("B", [["c"]])].
Definition mix2 : rulemap string := grammar_map [("Z", [["S"]]); ("S", [["a"; "A"; "d"]; ["b"; "B"; "d"]; ["a"; "B"; "e"]; ["b"; "A"; "e"]; ["a"; "c"; "f"]]); ("A", [["c"]]); ("B", [["c"]])].
Definition mix1_g : grammar string := match grammar_new true "Z" mix1 "$" with Val g => g | _ => calc_g true end.
Definition mix2_g : grammar string := match grammar_new true "Z" mix2 "$" with Val g => g | _ => calc_g true end.
Lemma mix1_gE : grammar_new true "Z" mix1 "$" = Val mix1_g. Proof. check. Qed.
Lemma mix2_gE : grammar_new true "Z" mix2 "$" = Val mix2_g. Proof. check. Qed.
Lemma mix1_wf : wf_rules mix1. Proof. facts. Qed.
Lemma mix2_wf : wf_rules mix2. Proof. facts. Qed.
Definition mix1_t (k : method) : tabler string := tab k true 80 mix1_g.
Definition mix2_t (k : method) : tabler string := tab k true 80 mix2_g.
Lemma mix1_makes k : makes k true mix1_g (mix1_t k). Proof. apply tab_makes. destruct k; check. Qed.
Lemma mix2_makes k : makes k true mix2_g (mix2_t k). Proof. apply tab_makes. destruct k; check. Qed.
Lemma mix_eof : term mix1 "$" /\ term mix2 "$". Proof. split; facts. Qed.
Lemma mix_fewer : fewer mix1 mix2 "Z".
Proof.
  exists (fun A i => i). constructor; auto.
  - intros A i rhs H. alternatives H; (eexists; eexists; split; check).
  - intros A i rhs x H Hx. alternatives H; cbn in Hx; repeat destruct Hx as [<-|Hx]; try contradiction;
      (split; intros N (r & E); first [vm_compute in E; discriminate E|apply N; eexists; check]).
Qed.
Lemma mix_conflicts : conflicts (t_actions (mix2_t LALR)) = [] /\ conflicts (t_actions (mix1_t LALR)) <> [].
Proof. split; [check|]. intros E. vm_compute in E. discriminate E. Qed.
Lemma amb1_conflict k : exists q qs row a b, stack_path (amb1_t k) (q :: qs) ["E"; "+"; "E"] /\ nth_error (t_actions (amb1_t k)) q = Some row /\ bm_get "+" row = Some (Conflict a b).
Proof.
  exists 4, [3; 1; 0]. destruct k; (do 3 eexists; split; [|split; check]);
    (repeat (apply stack_push; [|do 2 eexists; split; [check|]; split; [check|]; cbn; auto])); constructor.
Qed.

(** values: the sum in both *)
Definition sums1_maps : reductmap string nat :=
  bm_of_list [("Z", [fun l => 100 + nth_val l 0]); ("E", [fun l => nth_val l 0 + nth_val l 2; fun l => nth_val l 0]); ("T", [fun l => nth_val l 0])].
Definition sums2_maps : reductmap string nat :=
  bm_of_list [("Z", [fun l => 100 + nth_val l 0]); ("E", [fun l => nth_val l 0 + nth_val l 2; fun l => nth_val l 0 - nth_val l 2; fun l => nth_val l 0]);
    ("T", [fun l => nth_val l 0; fun l => nth_val l 0]); ("F", [fun l => nth_val l 1])].
Lemma sums_functions : same_functions sums_f sums1 sums1_maps sums2_maps.
Proof.
  intros A i rhs fs h P Hf Hh. alternatives P; vm_compute in Hf; injection Hf as <-; cbn in Hh; injection Hh as <-; (eexists; split; reflexivity).
Qed.
Lemma sums2_fresh : start_fresh sums2 "Z". Proof. facts. Qed.
Lemma sums2_carries : carries (sums2_t LALR). Proof. apply carries_ok. check. Qed.
Definition sums_in : list (token string nat) := [mkTok 4 "n"; mkTok 0 "+"; mkTok 5 "n"; mkTok 0 "+"; mkTok 6 "n"].
Lemma sums1_parses k : parses (sums1_t k) sums_in sums1_maps (POk 15). Proof. exists 100. destruct k; check. Qed.
