(** C125: runs that do not return *)
From Coq Require Import List Bool Arith String.
From Verif Require Import BTree Model Strings Spec SpecP Interface Check Examples Refute Refute2 CircleSpec Circle CircleEx.
Import ListNotations.
Local Open Scope string_scope.
Local Open Scope list_scope.
Local Notation length := List.length.

(** ** C125 *)
(** A parse returns or comes back to the same stack with the same tokens still to come: a
    circle of at most as many rounds as there are rules, closed within the number of rounds a
    returning parse may take. *)
Theorem C125_circle : forall (T : Type) (OT : Ord T) (dbg : bool) (start eof : T) (rules : rulemap T) (g : grammar T),
  wf_rules rules -> grammar_new dbg start rules eof = Val g -> forall M (maps : reductmap T M) k t, makes k dbg g t -> term rules eof ->
  forall input, covers rules maps -> Forall (term rules) (map tk_ty input) -> (exists r, parses t input maps r) \/
  exists m n d0 d1 d2, parser_dfa t input maps = Val d0 /\ rounds m d0 d1 /\ rounds n d1 d2 /\ same_place d1 d2 /\
    0 < n /\ n <= length rules /\ m + n <= (2 * length rules + 1) * length input + 1.
Proof. exact @circle. Qed.
Print Assumptions C125_circle.

(** Conversely a parse that comes back does not return, whatever values the reductors compute. *)
Theorem C125_no_return : forall (T : Type) (OT : Ord T) (dbg : bool) (start eof : T) (rules : rulemap T) (g : grammar T),
  wf_rules rules -> grammar_new dbg start rules eof = Val g -> forall M (maps : reductmap T M) k t, makes k dbg g t -> term rules eof ->
  forall input d, Forall (term rules) (map tk_ty input) -> reaches t input maps d ->
  forall n d', rounds n d d' -> 0 < n -> same_place d d' -> forall r, ~ parses t input maps r.
Proof. exact @no_return. Qed.
Print Assumptions C125_no_return.

(** What goes round is the symbol on top of the stack: it derives itself by unit productions. *)
Theorem C125_unit : forall (T : Type) (OT : Ord T) (dbg : bool) (start eof : T) (rules : rulemap T) (g : grammar T),
  wf_rules rules -> grammar_new dbg start rules eof = Val g -> forall M (maps : reductmap T M) k t, makes k dbg g t -> term rules eof ->
  forall input d, Forall (term rules) (map tk_ty input) -> reaches t input maps d ->
  forall n d', rounds n d d' -> 0 < n -> same_place d d' -> exists A rest, map tk_ty (d_items d) = A :: rest /\ unit_chain rules A A.
Proof. exact @circle_chain. Qed.
Print Assumptions C125_unit.

(** In terms of the table: a parse does not return exactly if it reaches a configuration whose top symbol the table
    reduces, by itself and on the same next symbol, to others and back to itself above the same state. *)
Theorem C125_spins : forall (T : Type) (OT : Ord T) (dbg : bool) (start eof : T) (rules : rulemap T) (g : grammar T),
  wf_rules rules -> grammar_new dbg start rules eof = Val g -> forall M (maps : reductmap T M) k t, makes k dbg g t -> term rules eof ->
  forall input, covers rules maps -> Forall (term rules) (map tk_ty input) ->
  ((forall r, ~ parses t input maps r) <->
   exists d a A q qs rest, reaches t input maps d /\ d_finished d = false /\ d_states d = a :: q :: qs /\ map tk_ty (d_items d) = A :: rest /\ spins t q (lookahead d) (a, A)).
Proof. exact @spin_iff. Qed.
Print Assumptions C125_spins.
Theorem C125_spin_free : forall (T : Type) (OT : Ord T) (dbg : bool) (start eof : T) (rules : rulemap T) (g : grammar T),
  wf_rules rules -> grammar_new dbg start rules eof = Val g -> forall M (maps : reductmap T M) k t, makes k dbg g t -> term rules eof ->
  (forall q x s, ~ spins t q x s) -> forall input, covers rules maps -> Forall (term rules) (map tk_ty input) -> exists r, parses t input maps r.
Proof. exact @spin_free. Qed.
Print Assumptions C125_spin_free.

(** So a parse that has not returned after (2 * rules + 1) * tokens + 1 rounds never will. *)
Theorem C125_decided : forall (T : Type) (OT : Ord T) (dbg : bool) (start eof : T) (rules : rulemap T) (g : grammar T),
  wf_rules rules -> grammar_new dbg start rules eof = Val g -> forall M (maps : reductmap T M) k t, makes k dbg g t -> term rules eof ->
  forall input d, covers rules maps -> Forall (term rules) (map tk_ty input) -> parser_dfa t input maps = Val d ->
  dfa_start ((2 * length rules + 1) * length input + 4) d = Fuel -> forall fuel, dfa_start fuel d = Fuel.
Proof. exact @decided. Qed.
Print Assumptions C125_decided.

(** Z -> S; S -> a C | b C y; C -> D | c; D -> C, input a c y: Slr has a C on its stack after three rounds and
    again after five; Clr and Lalr report the y *)
Example C125_example : (wf_rules ring /\ grammar_new true "Z" ring "$" = Val ring_g /\ (forall k, makes k true ring_g (ring_t k)) /\ term ring "$" /\
  productive ring /\ covers ring (empty_map ring_g) /\ Forall (term ring) (map tk_ty ring_in)) /\
  parser_dfa (ring_t SLR) ring_in (empty_map ring_g) = Val (ring_d SLR 0) /\
  rounds 3 (ring_d SLR 0) (ring_d SLR 3) /\ rounds 2 (ring_d SLR 3) (ring_d SLR 5) /\ same_place (ring_d SLR 3) (ring_d SLR 5) /\
  map tk_ty (d_items (ring_d SLR 3)) = ["C"; "a"] /\
  dfa_start ((2 * length ring + 1) * length ring_in + 4) (ring_d SLR 0) = Fuel /\
  forall k, k <> SLR -> exists es, parses (ring_t k) ring_in (empty_map ring_g) (PErr (UnexpectedToken "y" es)).
Proof. exact (conj ring_facts ring_turns). Qed.
Print Assumptions C125_example.

(** the rules have a circle, but the tables of Clr and Lalr do not spin: their parsers always return *)
Example C125_spin_free_example : unit_chain ring "C" "C" /\ forall k, k <> SLR -> forall q x s, ~ spins (ring_t k) q x s.
Proof. exact (conj ring_cycle ring_spin_free). Qed.
Print Assumptions C125_spin_free_example.
