(** Concrete grammars used beside the property theorems to show that their hypotheses
    are met by something non-trivial. *)
From Coq Require Import List Bool Arith String Lia.
From Verif Require Import BTree Model Strings Grammars Base Spec SpecP GrammarP Interface Check.
Import ListNotations.
Local Open Scope string_scope.

(** decide a boolean check by computation *)
Ltac check := vm_compute; reflexivity.

(** ** a calculator:  Z -> E;  E -> E + T | T;  T -> n | ( E ) *)
Definition calc : rulemap string :=
  grammar_map [("Z", [["E"]]); ("E", [["E"; "+"; "T"]; ["T"]]); ("T", [["n"]; ["("; "E"; ")"]])].

Lemma calc_wf : wf_rules calc. Proof. apply grammar_map_wf. Qed.
Lemma calc_fresh : start_fresh calc "Z". Proof. apply (fresh_ok calc calc_wf). check. Qed.
Lemma calc_single : single_start calc "Z". Proof. apply (single_ok calc calc_wf). check. Qed.
Lemma calc_eof : term calc "$". Proof. apply nonterm_b_false. check. Qed.
Lemma calc_productive : productive calc. Proof. apply (productive_ok calc calc_wf ["T"; "E"; "Z"]). check. Qed.
Lemma calc_reachable : reachable calc "Z". Proof. apply (reachable_ok calc calc_wf "Z" ["Z"; "E"; "T"]). check. Qed.
Lemma calc_nounit : no_unit_cycle calc. Proof. apply (unit_ok calc calc_wf ["T"; "E"; "Z"]). check. Qed.
Lemma calc_noempty : noempty calc. Proof. apply (noempty_ok calc calc_wf). check. Qed.
Lemma calc_noleft : no_left_cycle calc. Proof. apply (left_ok calc calc_wf ["T"; "E"; "Z"]). check. Qed.
Lemma calc_noright : no_right_cycle calc. Proof. apply (right_ok calc calc_wf ["T"; "E"; "Z"]). check. Qed.

Definition calc_gs (dbg : bool) : {g | grammar_new dbg "Z" calc "$" = Val g}.
Proof. destruct dbg; eexists; check. Defined.
Definition calc_g (dbg : bool) := proj1_sig (calc_gs dbg).
Lemma calc_gE dbg : grammar_new dbg "Z" calc "$" = Val (calc_g dbg). Proof. exact (proj2_sig (calc_gs dbg)). Qed.

Definition calc_t0s : {t | tabler_new true 20 (calc_g true) = Val t}. Proof. eexists; check. Defined.
Definition calc_t0 := proj1_sig calc_t0s.
Lemma calc_t0M : tabler_makes true (calc_g true) calc_t0. Proof. exists 20. exact (proj2_sig calc_t0s). Qed.

Definition calc_slrs : {t | slr_new true 40 (calc_g true) = Val t}. Proof. eexists; check. Defined.
Definition calc_slr := proj1_sig calc_slrs.
Definition calc_clrs : {t | clr_new true 60 (calc_g true) = Val t}. Proof. eexists; check. Defined.
Definition calc_clr := proj1_sig calc_clrs.
Definition calc_lalrs : {t | exists p, lalr_new true 60 (calc_g true) = Val (t, p)}. Proof. eexists; eexists; check. Defined.
Definition calc_lalr := proj1_sig calc_lalrs.

Definition calc_tab (k : method) : tabler string := match k with SLR => calc_slr | CLR => calc_clr | LALR => calc_lalr end.
Lemma calc_makes k : makes k true (calc_g true) (calc_tab k).
Proof.
  destruct k; simpl.
  - exists 40. exact (proj2_sig calc_slrs).
  - exists 60. exact (proj2_sig calc_clrs).
  - exists 60. exact (proj2_sig calc_lalrs).
Qed.
Lemma calc_clean k : conflicts (t_actions (calc_tab k)) = []. Proof. destruct k; check. Qed.
Lemma calc_carries : carries (calc_tab LALR). Proof. apply carries_ok. check. Qed.

(** a reductor for every production, computing the sum *)
Definition nth_val (l : list (token string nat)) (i : nat) : nat := match nth_error l i with Some t => tk_item t | None => 0 end.
Definition calc_maps : reductmap string nat :=
  bm_of_list [("Z", [fun l => 100 + nth_val l 0]);
              ("E", [fun l => nth_val l 0 + nth_val l 2; fun l => nth_val l 0]);
              ("T", [fun l => nth_val l 0; fun l => nth_val l 1])].
Lemma calc_covers : covers calc calc_maps. Proof. apply covers_ok; [apply calc_wf|check]. Qed.

(** 1 + ( 2 + 3 ) *)
Definition calc_input : list (token string nat) :=
  [mkTok 1 "n"; mkTok 0 "+"; mkTok 0 "("; mkTok 2 "n"; mkTok 0 "+"; mkTok 3 "n"; mkTok 0 ")"].
Lemma calc_input_terms : Forall (term calc) (map tk_ty calc_input). Proof. apply terms_ok. check. Qed.
Lemma calc_parses k : parses (calc_tab k) calc_input calc_maps (POk 6). Proof. destruct k; exists 30; check. Qed.
Lemma calc_validates k : validates (calc_tab k) (to_tokens (map tk_ty calc_input)) true. Proof. destruct k; exists 30; check. Qed.

(** 1 + + *)
Definition calc_bad : list (token string nat) := [mkTok 1 "n"; mkTok 0 "+"; mkTok 0 "+"].
Lemma calc_bad_terms : Forall (term calc) (map tk_ty calc_bad). Proof. apply terms_ok. check. Qed.

(** the seed of the first closure *)
Lemma calc_seed_sorted : sorted [g_basis (calc_g true)]. Proof. vm_compute. split; [intros ? []|exact I]. Qed.
Lemma calc_seed_valid : forall p, In p [g_basis (calc_g true)] -> valid_pos (calc_g true) p.
Proof.
  intros p [<-|[]]. split; [|split; [|split]].
  - apply (prods_in calc calc_wf). vm_compute. tauto.
  - vm_compute. lia.
  - vm_compute. split; [intros ? []|exact I].
  - intros x Hx. vm_compute in Hx |- *. tauto.
Qed.
