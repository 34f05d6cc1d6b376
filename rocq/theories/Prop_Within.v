(** C133: how much work Lalr's construction is *)
From Coq Require Import List Bool Arith String.
From Verif Require Import BTree Model Strings Grammars Spec SpecP Interface Check Examples Refute Refute2 WithinSpec LalrWork WithinEx.
Import ListNotations.
Local Open Scope string_scope.
Local Open Scope list_scope.
Local Notation length := List.length.

(** ** C133 *)
(** Lalr's table comes out as it does even if no closure may take more than twice as many rounds as there are nonterminals and
    one, if [update_closures] may nest only as deeply as the longest right-hand side is long and never goes back to its first
    symbol, and if the loop over the states may turn only so many times for each state of the table: once for each place in a
    right-hand side and each symbol, twice over, and three times more. [L] bounds the right-hand sides, [U] lists the places. *)
Theorem C133_work : forall (T : Type) (OT : Ord T) (dbg : bool) (start eof : T) (rules : rulemap T) (g : grammar T),
  wf_rules rules -> grammar_new dbg start rules eof = Val g -> forall t t', tabler_makes dbg g t -> makes LALR dbg g t' -> forall L U,
  (forall A i rhs, prod_at rules A i rhs -> length rhs <= L) ->
  (forall A i rhs p, prod_at rules A i rhs -> p <= length rhs -> In (A, i, p) U) ->
  forall rounds depth turns, 2 * length rules < rounds -> L <= depth -> length (t_states t') * (2 * (length U * length (g_symbols g)) + 3) < turns ->
  lalr_within dbg rounds depth turns t = Val t'.
Proof. exact @lalr_work. Qed.
Print Assumptions C133_work.

Example C133_work_example : wf_rules deep /\ grammar_new true "Z" deep "$" = Val deep_g /\ tabler_makes true deep_g deep_t0 /\ makes LALR true deep_g deep_t /\
  (forall A i rhs, prod_at deep A i rhs -> length rhs <= 3) /\
  (forall A i rhs p, prod_at deep A i rhs -> p <= length rhs -> In (A, i, p) deep_places) /\
  length (t_states deep_t) = 14 /\ lalr_within true 20 2 100 deep_t0 = Fuel /\ lalr_within true 20 3 100 deep_t0 = Val deep_t.
Proof. exact (conj deep_wf (conj deep_gE (conj deep_t0M (conj deep_makes (conj deep_short (conj deep_places_all deep_within)))))). Qed.

(** No table comes out with fewer turns than one for each state and one more to see that it is done. *)
Theorem C133_least : forall (T : Type) (OT : Ord T) (dbg : bool) (start eof : T) (rules : rulemap T) (g : grammar T),
  wf_rules rules -> grammar_new dbg start rules eof = Val g -> forall t t' fuel, tabler_makes dbg g t ->
  with_table LALR dbg fuel t = Val t' -> length (t_states t') < fuel.
Proof. exact @lalr_least. Qed.
Print Assumptions C133_least.

(** and it may take more: here one state of the nine is gone through twice *)
Example C133_least_example : wf_rules calc /\ grammar_new true "Z" calc "$" = Val (calc_g true) /\ tabler_makes true (calc_g true) calc_t0 /\
  lalr_within true 20 3 10 calc_t0 = Fuel /\ lalr_within true 20 3 11 calc_t0 = Val (calc_tab LALR) /\
  length (t_states (calc_tab LALR)) = 9 /\ with_table LALR true 10 calc_t0 = Fuel /\ with_table LALR true 11 calc_t0 = Val (calc_tab LALR).
Proof. exact (conj calc_wf (conj (calc_gE true) (conj calc_t0M calc_within))). Qed.
