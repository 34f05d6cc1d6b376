(** C02 - C05 and the sharpened C47 - C49 *)
From Coq Require Import List Bool Arith String.
From Verif Require Import BTree Model Strings Spec SpecP Interface Wrap Final Check Export Examples Refute.
Import ListNotations.
Local Open Scope string_scope.

(** ** C02 *)
Theorem C02_first_exact : forall (T : Type) (OT : Ord T) (dbg : bool) (start eof : T) (rules : rulemap T) (g : grammar T),
  wf_rules rules -> grammar_new dbg start rules eof = Val g ->
  forall t, tabler_makes dbg g t -> forall A a, nonterm rules A -> term rules a ->
  ((exists s, bm_get A (t_first t) = Some s /\ In a s) <-> exists v, derives rules [A] (a :: v)).
Proof. exact @first_exact. Qed.
Print Assumptions C02_first_exact.

Example C02_example : wf_rules calc /\ grammar_new true "Z" calc "$" = Val (calc_g true) /\ tabler_makes true (calc_g true) calc_t0 /\
  nonterm calc "E" /\ term calc "(" /\ bm_get "E" (t_first calc_t0) = Some ["("; "n"].
Proof.
  split; [exact calc_wf|]. split; [exact (calc_gE true)|]. split; [exact calc_t0M|].
  split; [apply nonterm_b_true; check|]. split; [apply nonterm_b_false; check|check].
Qed.

(** ** C03 *)
(** The exactness claim fails in release builds: FIRST may keep nonterminals (C05), and FOLLOW
    then contains terminals that can never follow. *)
Theorem C03_follow_exact_refuted :
  exists (rules : rulemap string) (start eof : string) (g : grammar string) (t : tabler string) (A a : string),
  wf_rules rules /\ grammar_new false start rules eof = Val g /\ tabler_makes false g t /\ term rules eof /\
  nonterm rules A /\ term rules a /\ (exists s, bm_get A (t_follow t) = Some s /\ In a s) /\ ~ follow_rules rules start eof A a.
Proof.
  exact (ex_intro _ tri (ex_intro _ "Z" (ex_intro _ "$" (ex_intro _ tri_g (ex_intro _ tri_t (ex_intro _ "X" (ex_intro _ "$"
    (conj (grammar_map_wf _) (conj (tri_gE false) (conj tri_makes (conj (proj1 (proj2 tri_follow_wrong))
    (conj tri_X (conj (proj1 (proj2 tri_follow_wrong)) (conj (proj1 tri_follow_wrong) (proj2 (proj2 tri_follow_wrong)))))))))))))))).
Qed.
Print Assumptions C03_follow_exact_refuted.

(** What holds.  In every build FOLLOW contains all symbols that can follow (textbook rules, and
    sentential forms of start eof); in debug builds, and in release builds whenever the tables
    hold only terminals, it contains nothing else.  Missing: exactness in release builds whose
    tables hold nonterminals, refuted above. *)
Theorem C03_follow_exact_partial : forall (T : Type) (OT : Ord T) (dbg : bool) (start eof : T) (rules : rulemap T) (g : grammar T),
  wf_rules rules -> grammar_new dbg start rules eof = Val g ->
  forall t, tabler_makes dbg g t -> term rules eof ->
  ((forall A a, follow_rules rules start eof A a -> exists s, bm_get A (t_follow t) = Some s /\ In a s) /\
   (forall A a, nonterm rules A -> follow_deriv rules start eof A a -> exists s, bm_get A (t_follow t) = Some s /\ In a s)) /\
  (dbg = true \/ only_terminals t ->
   (forall A a, term rules a -> ((exists s, bm_get A (t_follow t) = Some s /\ In a s) <-> follow_rules rules start eof A a)) /\
   (reachable rules start -> forall A a, nonterm rules A -> term rules a ->
     ((exists s, bm_get A (t_follow t) = Some s /\ In a s) <-> follow_deriv rules start eof A a))).
Proof. exact (fun T OT dbg start eof rules g W Hg t Ht He => conj (follow_upper dbg start eof rules g W Hg t Ht He) (follow_exact dbg start eof rules g W Hg t Ht He)). Qed.
Print Assumptions C03_follow_exact_partial.

Example C03_example : wf_rules calc /\ grammar_new true "Z" calc "$" = Val (calc_g true) /\ tabler_makes true (calc_g true) calc_t0 /\
  term calc "$" /\ reachable calc "Z" /\ bm_get "E" (t_follow calc_t0) = Some ["$"; ")"; "+"].
Proof.
  split; [exact calc_wf|]. split; [exact (calc_gE true)|]. split; [exact calc_t0M|].
  split; [exact calc_eof|]. split; [exact calc_reachable|check].
Qed.

(** ** C47: FOLLOW in debug builds *)
Theorem C47_follow_exact_debug : forall (T : Type) (OT : Ord T) (start eof : T) (rules : rulemap T) (g : grammar T),
  wf_rules rules -> grammar_new true start rules eof = Val g -> term rules eof ->
  forall t, tabler_makes true g t ->
  (forall A a, (exists s, bm_get A (t_follow t) = Some s /\ In a s) <-> term rules a /\ follow_rules rules start eof A a) /\
  (reachable rules start -> forall A a, nonterm rules A ->
     ((exists s, bm_get A (t_follow t) = Some s /\ In a s) <-> follow_deriv rules start eof A a)).
Proof. exact @follow_debug. Qed.
Print Assumptions C47_follow_exact_debug.

(** ** C04 *)
(** [Tabler::new] does not return on these grammars, debug or release: the FIRST loop cycles on
    indirect left recursion (A -> B x; B -> C y; C -> A z | c), the FOLLOW loop on indirect right
    recursion (E -> T; T -> F; F -> - E | x). *)
Theorem C04_tabler_total_refuted :
  (exists (rules : rulemap string) (start eof : string) (g : grammar string), wf_rules rules /\ start_fresh rules start /\ term rules eof /\
     (forall A i rhs, prod_at rules A i rhs -> rhs <> []) /\
     forall dbg, grammar_new dbg start rules eof = Val g /\ forall fuel, tabler_new dbg fuel g = Fuel) /\
  (exists (rules : rulemap string) (start eof : string) (g : grammar string), wf_rules rules /\ start_fresh rules start /\ term rules eof /\
     (forall A i rhs, prod_at rules A i rhs -> rhs <> []) /\ no_left_cycle rules /\
     forall dbg, grammar_new dbg start rules eof = Val g /\ forall fuel, tabler_new dbg fuel g = Fuel).
Proof. exact (conj left3_refutes right3_refutes). Qed.
Print Assumptions C04_tabler_total_refuted.

(** It returns on grammars without indirect left or right recursion.  Missing: grammars with
    indirect recursion on which the loops happen to stop. *)
Theorem C04_tabler_total_partial : forall (T : Type) (OT : Ord T) (dbg : bool) (start eof : T) (rules : rulemap T) (g : grammar T),
  wf_rules rules -> grammar_new dbg start rules eof = Val g ->
  (forall A i rhs, prod_at rules A i rhs -> rhs <> []) -> term rules eof -> no_left_cycle rules -> no_right_cycle rules ->
  exists t, tabler_makes dbg g t /\ only_terminals t.
Proof. exact @tabler_total_only. Qed.
Print Assumptions C04_tabler_total_partial.

Example C04_example : wf_rules calc /\ grammar_new true "Z" calc "$" = Val (calc_g true) /\
  (forall A i rhs, prod_at calc A i rhs -> rhs <> []) /\ term calc "$" /\ no_left_cycle calc /\ no_right_cycle calc.
Proof. exact (conj calc_wf (conj (calc_gE true) (conj calc_noempty (conj calc_eof (conj calc_noleft calc_noright))))). Qed.

(** ** C48: the same, as a claim of its own *)
Theorem C48_tabler_total_acyclic : forall (T : Type) (OT : Ord T) (dbg : bool) (start eof : T) (rules : rulemap T) (g : grammar T),
  wf_rules rules -> grammar_new dbg start rules eof = Val g ->
  (forall A i rhs, prod_at rules A i rhs -> rhs <> []) -> term rules eof -> no_left_cycle rules -> no_right_cycle rules ->
  exists t, tabler_makes dbg g t /\ only_terminals t /\
    (forall A a, nonterm rules A -> ((exists s, bm_get A (t_first t) = Some s /\ In a s) <-> first_spec rules A a)) /\
    (forall A a, (exists s, bm_get A (t_follow t) = Some s /\ In a s) <-> term rules a /\ follow_rules rules start eof A a).
Proof. exact @tabler_acyclic_exact. Qed.
Print Assumptions C48_tabler_total_acyclic.

(** ** C49: empty productions are always refused *)
Theorem C49_empty_production_panics : forall (T : Type) (OT : Ord T) (dbg : bool) (start eof : T) (rules : rulemap T) (g : grammar T),
  wf_rules rules -> grammar_new dbg start rules eof = Val g -> (exists A i, prod_at rules A i []) ->
  forall fuel, tabler_new dbg fuel g = Panic P_assert.
Proof. exact @empty_always_panics. Qed.
Print Assumptions C49_empty_production_panics.

Example C49_example : exists (rules : rulemap string) (g : grammar string),
  wf_rules rules /\ grammar_new true "Z" rules "$" = Val g /\ exists A i, prod_at rules A i [].
Proof. exact empty_example. Qed.

(** ** C05 *)
Theorem C05_only_terminals_refuted :
  exists (rules : rulemap string) (start eof : string) (g : grammar string) (t : tabler string),
  wf_rules rules /\ term rules eof /\ grammar_new false start rules eof = Val g /\ tabler_makes false g t /\
  (exists A s x, bm_get A (t_first t) = Some s /\ In x s /\ nonterm rules x) /\
  (exists A s x, bm_get A (t_follow t) = Some s /\ In x s /\ nonterm rules x) /\
  grammar_new true start rules eof = Val g /\ forall fuel, 20 <= fuel -> tabler_new true fuel g = Panic P_debug_assert.
Proof.
  exact (ex_intro _ tri (ex_intro _ "Z" (ex_intro _ "$" (ex_intro _ tri_g (ex_intro _ tri_t
    (conj (grammar_map_wf _) (conj (proj1 (proj2 tri_follow_wrong)) (conj (tri_gE false) (conj tri_makes (conj tri_nonterminals (conj tri_nonterminals_follow
    (conj (tri_gE true) tri_debug_panics)))))))))))).
Qed.
Print Assumptions C05_only_terminals_refuted.

(** What holds: a debug build that returns has only terminals in its tables, and so has any build
    of a grammar without indirect left or right recursion.  Missing: other release builds
    (refuted). *)
Theorem C05_only_terminals_partial : forall (T : Type) (OT : Ord T) (dbg : bool) (start eof : T) (rules : rulemap T) (g : grammar T),
  wf_rules rules -> grammar_new dbg start rules eof = Val g ->
  forall t, tabler_makes dbg g t -> dbg = true \/ (term rules eof /\ no_left_cycle rules /\ no_right_cycle rules) -> only_terminals t.
Proof. exact @only_when. Qed.
Print Assumptions C05_only_terminals_partial.

Example C05_example : wf_rules calc /\ grammar_new false "Z" calc "$" = Val (calc_g false) /\
  tabler_makes false (calc_g false) (tab0 false 20 (calc_g false)) /\ no_left_cycle calc /\ no_right_cycle calc.
Proof.
  split; [exact calc_wf|]. split; [exact (calc_gE false)|]. split; [exists 20; check|]. exact (conj calc_noleft calc_noright).
Qed.
