(** C119: what a conflict of Clr means *)
From Coq Require Import List Bool Arith String.
From Verif Require Import BTree Model Strings Spec SpecP Interface Check Examples Refute Refute2 UniqueEx LR1Spec DilemmaSpec Dilemma DilemmaEx.
Import ListNotations.
Local Open Scope string_scope.
Local Open Scope list_scope.

(** ** C119 *)
(** A driver of Clr stops with [Error::Conflict] in exactly those configurations in which the symbols on
    its stack and the next symbol leave two possibilities to the grammar. *)
Theorem C119_conflict_exact : forall (T : Type) (OT : Ord T) (dbg : bool) (start eof : T) (rules : rulemap T) (g : grammar T),
  wf_rules rules -> grammar_new dbg start rules eof = Val g ->
  forall t, makes CLR dbg g t -> term rules eof -> dbg = true \/ single_start rules start -> dbg = true \/ only_terminals t -> productive rules ->
  forall M (maps : reductmap T M) input d, covers rules maps -> Forall (term rules) (map tk_ty input) -> reaches t input maps d -> d_finished d = false ->
  ((exists fuel d' a b, travel fuel d (lookahead d) = Val (d', Err (ConflictErr a b))) <-> dilemma rules start eof (rev (map tk_ty (d_items d))) (lookahead d)).
Proof. exact @conflict_exact. Qed.
Print Assumptions C119_conflict_exact.

(** When it does, what it has read is the beginning of a sentence that goes on with the next token. *)
Theorem C119_conflict_genuine : forall (T : Type) (OT : Ord T) (dbg : bool) (start eof : T) (rules : rulemap T) (g : grammar T),
  wf_rules rules -> grammar_new dbg start rules eof = Val g ->
  forall t, makes CLR dbg g t -> term rules eof -> dbg = true \/ single_start rules start -> dbg = true \/ only_terminals t -> productive rules ->
  forall M (maps : reductmap T M) used rest a b, covers rules maps -> Forall (term rules) (map tk_ty (used ++ rest)) ->
  fails t (used ++ rest) maps rest (ConflictErr a b) ->
  exists pre, derives rules pre (map tk_ty used) /\ dilemma rules start eof pre (next eof (map tk_ty rest)) /\
    (next eof (map tk_ty rest) = eof /\ sentence rules start (map tk_ty used) \/ exists v, sentence rules start (map tk_ty used ++ next eof (map tk_ty rest) :: v)).
Proof. exact @conflict_genuine. Qed.
Print Assumptions C119_conflict_genuine.

(** Z -> E; E -> E + E | n, on n + n + n, stops before the second + *)
Example C119_example : wf_rules plus /\ grammar_new true "Z" plus "$" = Val plus_g /\ makes CLR true plus_g (plus_t CLR) /\ term plus "$" /\ productive plus /\
  covers plus (empty_map plus_g) /\ Forall (term plus) (map tk_ty (to_tokens ["n"; "+"; "n"] ++ to_tokens ["+"; "n"])) /\
  fails (plus_t CLR) (to_tokens ["n"; "+"; "n"] ++ to_tokens ["+"; "n"]) (empty_map plus_g) (to_tokens ["+"; "n"]) (ConflictErr (Shift 3) (Reduce "E" (["E"; "+"; "E"], 0))).
Proof.
  repeat match goal with |- _ /\ _ => split end; try (facts; fail); [apply plus_gE|apply plus_makes|exact plus_productive|apply plus_covers|exact plus_fails].
Qed.

(** Not so Slr: S -> L = R | R; L -> * R | i; R -> L never leaves a choice, Slr stops after the i of i = i. *)
Example C119_slr : makes SLR true assign_g (assign_t SLR) /\ (forall pre t, ~ dilemma assign "Z" "$" pre t) /\
  fails (assign_t SLR) (to_tokens ["i"] ++ to_tokens ["="; "i"]) (empty_map assign_g) (to_tokens ["="; "i"]) (ConflictErr (Reduce "R" (["L"], 0)) (Shift 8)).
Proof. exact (conj (proj1 (proj2 (proj2 assign_facts)) SLR) (conj assign_decided assign_fails)). Qed.
