(** C128: how much work a table is *)
From Coq Require Import List Bool Arith String.
From Verif Require Import BTree Model Strings Grammars Spec SpecP Interface Check Examples Refute Refute2 Work WorkStates Expo WorkEx.
Import ListNotations.
Local Open Scope string_scope.
Local Open Scope list_scope.
Local Notation length := List.length.

(** ** C128 *)
(** A closure settles after at most as many rounds as there are nonterminals with Slr, twice as many with Clr and Lalr, whatever it starts from. *)
Theorem C128_closure : forall (T : Type) (OT : Ord T) (dbg : bool) (start eof : T) (rules : rulemap T) (g : grammar T),
  wf_rules rules -> grammar_new dbg start rules eof = Val g -> forall k t, tabler_makes dbg g t -> forall seed, sorted seed ->
  exists c, forall fuel, (match k with SLR => length rules | _ => 2 * length rules end) < fuel -> prop_closure (closure_fn k t) fuel seed = Val c.
Proof. exact @closure_rounds. Qed.
Print Assumptions C128_closure.

Example C128_closure_example : wf_rules calc /\ grammar_new true "Z" calc "$" = Val (calc_g true) /\ tabler_makes true (calc_g true) calc_t0 /\
  length calc = 3 /\ sorted [g_basis (calc_g true)] /\ prop_closure (closure_fn SLR calc_t0) 2 [g_basis (calc_g true)] = Fuel /\
  prop_closure (closure_fn CLR calc_t0) 3 [g_basis (calc_g true)] = Fuel /\
  (exists c, prop_closure (closure_fn SLR calc_t0) 3 [g_basis (calc_g true)] = Val c /\ length c = 5) /\
  exists c, prop_closure (closure_fn CLR calc_t0) 4 [g_basis (calc_g true)] = Val c /\ length c = 9.
Proof. exact (conj calc_wf (conj (calc_gE true) (conj calc_t0M calc_rounds))). Qed.

(** Slr and Clr visit every state once: the loop over the states turns once for each state and once more to see that it is done. *)
Theorem C128_turns : forall (T : Type) (OT : Ord T) (dbg : bool) (start eof : T) (rules : rulemap T) (g : grammar T),
  wf_rules rules -> grammar_new dbg start rules eof = Val g -> forall k t t', k <> LALR -> tabler_makes dbg g t -> makes k dbg g t' ->
  forall fuel, (match k with SLR => length rules | _ => 2 * length rules end) < fuel ->
  (with_table k dbg fuel t = Val t' <-> length (t_states t') < fuel) /\ (fuel <= length (t_states t') -> with_table k dbg fuel t = Fuel).
Proof. exact @states_turns. Qed.
Print Assumptions C128_turns.

Example C128_turns_example : wf_rules calc /\ grammar_new true "Z" calc "$" = Val (calc_g true) /\ tabler_makes true (calc_g true) calc_t0 /\
  (forall k, makes k true (calc_g true) (calc_tab k)) /\
  with_table SLR true 9 calc_t0 = Fuel /\ with_table SLR true 10 calc_t0 = Val (calc_tab SLR) /\
  with_table CLR true 16 calc_t0 = Fuel /\ with_table CLR true 17 calc_t0 = Val (calc_tab CLR).
Proof. exact (conj calc_wf (conj (calc_gE true) (conj calc_t0M (conj calc_makes calc_turns)))). Qed.

(** There are at most two to the number of places within right-hand sides of states, with Lalr, and with Slr if the start symbol is on no right-hand side. *)
Theorem C128_states : forall (T : Type) (OT : Ord T) (dbg : bool) (start eof : T) (rules : rulemap T) (g : grammar T),
  wf_rules rules -> grammar_new dbg start rules eof = Val g -> forall k t, k <> CLR -> k = LALR \/ start_fresh rules start -> makes k dbg g t ->
  forall U, (forall A i rhs p, prod_at rules A i rhs -> 0 < p <= length rhs -> In (A, i, p) U) -> length (t_states t) <= 2 ^ length U.
Proof. exact @states_count. Qed.
Print Assumptions C128_states.

Example C128_states_example : wf_rules calc /\ grammar_new true "Z" calc "$" = Val (calc_g true) /\ start_fresh calc "Z" /\
  (forall k, makes k true (calc_g true) (calc_tab k)) /\ length calc_places = 9 /\
  forall A i rhs p, prod_at calc A i rhs -> 0 < p <= length rhs -> In (A, i, p) calc_places.
Proof. exact (conj calc_wf (conj (calc_gE true) (conj calc_fresh (conj calc_makes (conj eq_refl calc_places_all))))). Qed.

(** Exponentially many there can be, with every method, in a table without conflicts: the rules [expo (S n)] have (n+1)^2 + n + 2
    productions of one or two symbols, and at least 2^n states. *)
Theorem C128_exponential : forall n dbg,
  length (List.concat (map snd (expo_list (S n)))) = 1 + S n + S n * S n /\
  (forall A i rhs, prod_at (grammar_map (expo_list (S n))) A i rhs -> length rhs <= 2) /\
  exists g, grammar_new dbg 0 (grammar_map (expo_list (S n))) 2 = Val g /\
    forall k, exists t, makes k dbg g t /\ conflicts (t_actions t) = [] /\ 2 ^ n <= length (t_states t).
Proof. exact (fun n dbg => conj (expo_count (S n)) (conj (expo_short (S n)) (expo_all n dbg))). Qed.
Print Assumptions C128_exponential.

Example C128_exponential_example : expo_list 2 = [(0, [[1]]); (1, [[3]; [6]]); (3, [[7; 3]; [5]]); (6, [[4; 6]; [8]])].
Proof. exact expo_two. Qed.
