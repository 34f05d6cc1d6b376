(** A productive grammar whose Slr parser turns in a circle (C125) *)
From Coq Require Import List Bool Arith String Relation_Operators.
From Verif Require Import BTree Model Strings Spec SpecP Interface Check Examples Refute Refute2 CircleSpec.
Import ListNotations.
Local Open Scope string_scope.
Local Open Scope list_scope.

(** Z -> S; S -> a C | b C y; C -> D | c; D -> C *)
Definition ring := grammar_map [("Z", [["S"]]); ("S", [["a"; "C"]; ["b"; "C"; "y"]]); ("C", [["D"]; ["c"]]); ("D", [["C"]])].
Definition ring_g := gof "Z" ring (calc_g true).
Definition ring_t k := tab k true 60 ring_g.
Definition ring_in := to_tokens ["a"; "c"; "y"].
Definition ring_d k n := Nat.iter n next_conf (dfa_new ring_in (t_actions (ring_t k)) (empty_map ring_g) "$").

Lemma ring_facts : wf_rules ring /\ grammar_new true "Z" ring "$" = Val ring_g /\ (forall k, makes k true ring_g (ring_t k)) /\ term ring "$" /\
  productive ring /\ covers ring (empty_map ring_g) /\ Forall (term ring) (map tk_ty ring_in).
Proof.
  assert (wf_rules ring) as W by facts.
  split; auto. split; [check|]. split; [intros k; apply tab_makes; destruct k; check|]. split; [facts|].
  split; [apply (productive_ok ring W ["C"; "D"; "S"; "Z"]); check|]. split; [apply covers_ok; [auto|check]|]. repeat constructor; facts.
Qed.

(** [Slr] comes back to C on the stack after two rounds; [Clr] and [Lalr] report the y *)
Lemma ring_turns : parser_dfa (ring_t SLR) ring_in (empty_map ring_g) = Val (ring_d SLR 0) /\
  rounds 3 (ring_d SLR 0) (ring_d SLR 3) /\ rounds 2 (ring_d SLR 3) (ring_d SLR 5) /\ same_place (ring_d SLR 3) (ring_d SLR 5) /\
  map tk_ty (d_items (ring_d SLR 3)) = ["C"; "a"] /\
  dfa_start ((2 * List.length ring + 1) * List.length ring_in + 4) (ring_d SLR 0) = Fuel /\
  forall k, k <> SLR -> exists es, parses (ring_t k) ring_in (empty_map ring_g) (PErr (UnexpectedToken "y" es)).
Proof.
  split; [check|].
  assert (forall n, n < 5 -> round (ring_d SLR n) (ring_d SLR (S n))) as R.
  { intros n Hn. do 5 (destruct n as [|n]; [split; [check|exists 5; check]|]). exfalso. do 5 apply Nat.succ_lt_mono in Hn. inversion Hn. }
  split. { do 3 (eapply rounds_S; [apply R; repeat constructor|]). constructor. }
  split. { do 2 (eapply rounds_S; [apply R; repeat constructor|]). constructor. }
  split; [split; [check|split; [check|split; check]]|]. split; [check|]. split; [check|].
  intros k Hk. destruct k; [congruence| |]; eexists; exists 60; check.
Qed.

(** [Clr]'s and [Lalr]'s tables do not spin, in spite of the circle in the rules *)
Definition only_C (a : action string) : bool := match a with Reduce B ([A], _) => (eqb B "C" && negb (eqb A "C"))%bool | _ => true end.
Lemma ring_spin_free k : k <> SLR -> forall q x s, ~ spins (ring_t k) q x s.
Proof.
  intros Hk q x.
  assert (forallb (forallb (fun c => only_C (snd c))) (t_actions (ring_t k)) = true) as Hb by (destruct k; [congruence| |]; check).
  assert (forall s s', unit_step (ring_t k) q x s s' -> snd s' = "C" /\ snd s <> "C") as U.
  { intros [n A] [m B] (i & (row & H1 & H2) & _). apply nth_error_In in H1. apply bm_get_in in H2. rewrite forallb_forall in Hb. specialize (Hb _ H1).
    rewrite forallb_forall in Hb. specialize (Hb _ H2). cbn [snd only_C] in *. apply andb_prop in Hb as [Hb1 Hb2]. apply eqb_eq in Hb1. apply Bool.negb_true_iff, eqb_neq in Hb2. auto. }
  assert (forall s s', clos_trans _ (unit_step (ring_t k) q x) s s' -> snd s' = "C" /\ snd s <> "C") as G by (induction 1; [auto|tauto]).
  intros s H. apply G in H. tauto.
Qed.
Lemma ring_cycle : unit_chain ring "C" "C".
Proof.
  assert (wf_rules ring) as W by facts. assert (prod_at ring "C" 0 ["D"]) as H1 by (apply prod_ok; [exact W|check]). assert (prod_at ring "D" 0 ["C"]) as H2 by (apply prod_ok; [exact W|check]).
  apply (uc_more ring "C" 0 "D" "C"); auto; [eapply prod_nonterm; eauto|]. eapply uc_one; eauto. eapply prod_nonterm; eauto.
Qed.
