(** C112 - C114, C116: exactly when [Tabler::new] returns, and after how many rounds *)
From Coq Require Import List Bool Arith String.
From Verif Require Import BTree Model Strings Spec SpecP Interface Check Examples Refute StopsSpec StopsEx.
Import ListNotations.
Local Open Scope string_scope.

(** ** C112 *)
Theorem C112_debug_outcomes : forall (T : Type) (OT : Ord T) (start eof : T) (rules : rulemap T) (g : grammar T),
  wf_rules rules -> (forall A i rhs, prod_at rules A i rhs -> rhs <> []) -> term rules eof ->
  grammar_new true start rules eof = Val g ->
  ((exists t, tabler_makes true g t) <-> vanishes (left_corner rules) /\ vanishes (right_corner rules)) /\
  ((exists fuel, tabler_new true fuel g = Panic P_debug_assert) <->
     (settles (left_corner rules) /\ ~ vanishes (left_corner rules)) \/
     (vanishes (left_corner rules) /\ settles (right_corner rules) /\ ~ vanishes (right_corner rules))) /\
  ((forall fuel, tabler_new true fuel g = Fuel) <->
     (settles (left_corner rules) -> vanishes (left_corner rules) /\ ~ settles (right_corner rules))) /\
  (forall fuel p, tabler_new true fuel g = Panic p -> p = P_debug_assert).
Proof. exact debug_outcomes. Qed.
Print Assumptions C112_debug_outcomes.

Theorem C112_release_outcomes : forall (T : Type) (OT : Ord T) (start eof : T) (rules : rulemap T) (g : grammar T),
  wf_rules rules -> (forall A i rhs, prod_at rules A i rhs -> rhs <> []) -> term rules eof ->
  grammar_new false start rules eof = Val g ->
  ((exists t, tabler_makes false g t) <-> settles (left_corner rules) /\ settles (follow_ptr rules)) /\
  ((forall fuel, tabler_new false fuel g = Fuel) <-> ~ (settles (left_corner rules) /\ settles (follow_ptr rules))) /\
  (forall fuel p, tabler_new false fuel g <> Panic p).
Proof. exact release_outcomes. Qed.
Print Assumptions C112_release_outcomes.

(** left recursion through two nonterminals is fine; in [tri] pointers settle without vanishing; [left3] goes on forever *)
Example C112_example :
  (wf_rules left2 /\ noempty left2 /\ term left2 "$" /\ (forall dbg, grammar_new dbg "Z" left2 "$" = Val left2_g) /\ ~ no_left_cycle left2 /\
   (exists t, tabler_makes true left2_g t) /\ vanishes (left_corner left2)) /\
  (wf_rules tri /\ noempty tri /\ term tri "$" /\ (forall dbg, grammar_new dbg "Z" tri "$" = Val tri_g) /\
   tabler_new true 20 tri_g = Panic P_debug_assert /\ tabler_makes false tri_g tri_t /\ settles (left_corner tri)) /\
  (forall dbg fuel, tabler_new dbg fuel left3_g = Fuel).
Proof.
  assert (X : exists t, tabler_makes true left2_g t) by (exists (tab0 true 20 left2_g), 20; check).
  repeat match goal with |- _ /\ _ => split end; try (facts; fail).
  - intros dbg. apply left2_gE.
  - exact left2_cycle.
  - exact X.
  - destruct (debug_outcomes _ _ "Z" "$" left2 left2_g ltac:(facts) ltac:(change (noempty left2); facts) ltac:(facts) (left2_gE true)) as (D & _).
    apply D in X. apply X.
  - intros dbg. apply tri_gE.
  - check.
  - exact tri_makes.
  - destruct (release_outcomes _ _ "Z" "$" tri tri_g ltac:(facts) ltac:(change (noempty tri); facts) ltac:(facts) (tri_gE false)) as (D & _).
    apply D. exists tri_t. exact tri_makes.
  - intros dbg fuel. apply left3_diverges.
Qed.

(** ** C113 *)
Theorem C113_chains : forall (T : Type) (OT : Ord T) (start eof : T) (rules : rulemap T) (g : grammar T),
  wf_rules rules -> (forall A i rhs, prod_at rules A i rhs -> rhs <> []) -> term rules eof ->
  forall dbg, grammar_new dbg start rules eof = Val g ->
  functional (left_corner rules) -> functional (right_corner rules) ->
  ((exists t, tabler_makes dbg g t) <->
     forall A n, loop_of (left_corner rules) n A \/ loop_of (right_corner rules) n A -> power_of_two n) /\
  ((forall fuel, tabler_new dbg fuel g = Fuel) <->
     ~ forall A n, loop_of (left_corner rules) n A \/ loop_of (right_corner rules) n A -> power_of_two n) /\
  (forall fuel p, tabler_new dbg fuel g <> Panic p).
Proof. exact chain_outcomes. Qed.
Print Assumptions C113_chains.

(** four nonterminals in a circle are fine, three are not *)
Example C113_example :
  (wf_rules left4 /\ noempty left4 /\ term left4 "$" /\ (forall dbg, grammar_new dbg "Z" left4 "$" = Val left4_g) /\
   functional (left_corner left4) /\ functional (right_corner left4) /\ loop_of (left_corner left4) 4 "A" /\ tabler_makes true left4_g (tab0 true 20 left4_g)) /\
  (wf_rules left3 /\ noempty left3 /\ term left3 "$" /\ (forall dbg, grammar_new dbg "Z" left3 "$" = Val left3_g) /\
   functional (left_corner left3) /\ functional (right_corner left3) /\ loop_of (left_corner left3) 3 "A" /\ ~ power_of_two 3 /\
   forall dbg fuel, tabler_new dbg fuel left3_g = Fuel).
Proof.
  repeat match goal with |- _ /\ _ => split end; try (facts; fail); try apply left4_gE; try apply left3_gE; try apply left4_fun; try apply left3_fun.
  - exact left4_loop.
  - exists 20. check.
  - exact left3_loop.
  - exact three_not_power.
  - intros dbg fuel. apply left3_diverges.
Qed.

(** ** C114 *)
Theorem C114_nonterminals_left : forall (T : Type) (OT : Ord T) (start eof : T) (rules : rulemap T) (g : grammar T),
  wf_rules rules -> (forall A i rhs, prod_at rules A i rhs -> rhs <> []) -> term rules eof ->
  forall dbg, grammar_new dbg start rules eof = Val g -> forall t, tabler_makes dbg g t ->
  forall A B, nonterm rules B ->
  ((exists s, bm_get A (t_first t) = Some s /\ In B s) <-> lasting (left_corner rules) A B) /\
  ((exists s, bm_get A (t_follow t) = Some s /\ In B s) <-> lasting (follow_ptr rules) A B).
Proof. exact left_in_tables. Qed.
Print Assumptions C114_nonterminals_left.

Example C114_example : tabler_makes false tri_g tri_t /\ lasting (left_corner tri) "A" "B" /\
  exists A B, nonterm tri B /\ lasting (follow_ptr tri) A B.
Proof.
  assert (X := left_in_tables _ _ "Z" "$" tri tri_g ltac:(facts) ltac:(change (noempty tri); facts) ltac:(facts) false (tri_gE false) tri_t tri_makes).
  repeat match goal with |- _ /\ _ => split end; [exact tri_makes| |].
  - apply (X "A" "B"); [apply nonterm_b_true; check|]. eexists. split; [check|]. apply mem_b_in. check.
  - destruct tri_nonterminals_follow as (A & s & x & E & Hx & Hn). exists A, x. split; auto. apply (X A x Hn). eauto.
Qed.

(** ** C116 *)
(** Without cycles of corners, in both loops the round [r + 1] is the last or later than the last just when no walk of corners has [2^r] steps. *)
Theorem C116_rounds : forall (T : Type) (OT : Ord T) (start eof : T) (rules : rulemap T) (g : grammar T),
  wf_rules rules -> (forall A i rhs, prod_at rules A i rhs -> rhs <> []) -> term rules eof ->
  forall dbg r, grammar_new dbg start rules eof = Val g -> no_left_cycle rules -> no_right_cycle rules -> 1 <= r ->
  ((exists t, tabler_new dbg (S r) g = Val t) <->
   (forall A B, ~ steps (left_corner rules) (2 ^ r) A B) /\ (forall A B, ~ steps (right_corner rules) (2 ^ r) A B)) /\
  (List.length rules <= 2 ^ r -> exists t, tabler_new dbg (S r) g = Val t).
Proof. exact round_count. Qed.
Print Assumptions C116_rounds.

(** five nonterminals in a row: three rounds are too few, four will do *)
Example C116_example : wf_rules row5 /\ noempty row5 /\ term row5 "$" /\ (forall dbg, grammar_new dbg "Z" row5 "$" = Val row5_g) /\
  no_left_cycle row5 /\ no_right_cycle row5 /\ List.length row5 = 5 /\ steps (left_corner row5) (2 ^ 2) "Z" "D" /\
  (forall dbg, tabler_new dbg 3 row5_g = Fuel) /\ tabler_makes true row5_g (tab0 true 4 row5_g).
Proof.
  repeat match goal with |- _ /\ _ => split end; try (facts; fail); try apply row5_acyclic.
  - apply row5_gE.
  - check.
  - exact row5_walk.
  - intros dbg. destruct dbg; check.
  - exists 4. check.
Qed.
