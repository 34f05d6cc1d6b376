(** C139: the order of the positions in states *)
From Coq Require Import List Sorted String.
From Verif Require Import BTree Model Spec Interface Check Examples Strings OrderSpec OrderP.
Import ListNotations.
Local Open Scope string_scope.
Local Open Scope list_scope.

(** The positions of every state are listed, none twice, by rule, right-hand side, number of the alternative, dot and lookaheads. *)
Theorem C139_states : forall (T : Type) (OT : Ord T) (dbg : bool) (start eof : T) (rules : rulemap T) (g : grammar T),
  wf_rules rules -> grammar_new dbg start rules eof = Val g -> forall k t, makes k dbg g t ->
  forall row, In row (t_states t) -> StronglySorted before row.
Proof. exact @states_order. Qed.
Print Assumptions C139_states.
(** A dot further to the right comes before a greater right-hand side. *)
Example C139_example : wf_rules calc /\ grammar_new true "Z" calc "$" = Val (calc_g true) /\ makes SLR true (calc_g true) (calc_tab SLR) /\
  exists row, nth_error (t_states (calc_tab SLR)) 1 = Some row /\
  map (fun p => (p_rule p, fst (p_seq p), p_point p)) row =
    [("E", ["E"; "+"; "T"], 0); ("E", ["T"], 0); ("T", ["("; "E"; ")"], 0); ("T", ["("; "E"; ")"], 1); ("T", ["n"], 0)].
Proof. exact (conj calc_wf (conj (calc_gE true) (conj (calc_makes SLR) calc_second))). Qed.
