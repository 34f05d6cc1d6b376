(** C120, C121: states hold the valid items, drivers are the textbook's machines *)
From Coq Require Import List Bool Arith String.
From Verif Require Import BTree Model Strings Spec SpecP Interface Check Examples Refute Refute2 LR1Spec ValidSpec Valid Textbook ValidEx.
Import ListNotations.
Local Open Scope string_scope.
Local Open Scope list_scope.

(** ** C120 *)
(** Whatever way a state is reached, it holds exactly the items valid after the symbols read on the way,
    and the ways through the table are exactly the viable prefixes. *)
Theorem C120_items : forall (T : Type) (OT : Ord T) (dbg : bool) (start eof : T) (rules : rulemap T) (g : grammar T),
  wf_rules rules -> grammar_new dbg start rules eof = Val g ->
  forall k t, makes k dbg g t -> dbg = true \/ single_start rules start -> productive rules ->
  (forall q qs xs, stack_path t (q :: qs) xs -> forall A i u v, item_in t q A i u v <-> valid_after rules start (rev xs) A i u v) /\
  (forall pre, (exists q qs, stack_path t (q :: qs) (rev pre)) <-> (exists A i u v, valid_after rules start pre A i u v)) /\
  (forall q row pos, nth_error (t_states t) q = Some row -> In pos row -> exists A i u v, p_rule pos = A /\ p_seq pos = (u ++ v, i) /\ p_point pos = List.length u).
Proof. exact @items_valid. Qed.
Print Assumptions C120_items.

(** Under Clr the lookaheads are exactly those valid after the symbols read. *)
Theorem C120_lookaheads : forall (T : Type) (OT : Ord T) (dbg : bool) (start eof : T) (rules : rulemap T) (g : grammar T),
  wf_rules rules -> grammar_new dbg start rules eof = Val g ->
  forall t, makes CLR dbg g t -> term rules eof -> dbg = true \/ single_start rules start -> dbg = true \/ only_terminals t -> productive rules ->
  forall q qs xs, stack_path t (q :: qs) xs -> forall A i u v x, item_look t q A i u v x <-> valid_look rules start eof (rev xs) A i u v x.
Proof. exact @looks_valid. Qed.
Print Assumptions C120_lookaheads.

Example C120_example : wf_rules assign /\ grammar_new true "Z" assign "$" = Val assign_g /\ makes CLR true assign_g (assign_t CLR) /\ term assign "$" /\ productive assign /\
  stack_path (assign_t CLR) [2; 0] ["L"] /\ item_in (assign_t CLR) 2 "S" 0 ["L"] ["="; "R"] /\ item_look (assign_t CLR) 2 "R" 0 ["L"] [] "$".
Proof.
  destruct assign_facts as (H1 & H2 & H3 & H4 & _).
  exact (conj H1 (conj H2 (conj (H3 CLR) (conj H4 (conj assign_productive assign_items))))).
Qed.

(** ** C121 *)
(** In every configuration the driver of a Slr (Clr; Lalr, if its lookaheads are exact: C123) parser does what the
    SLR(1) (LR(1); LALR(1)) machine of the grammar does, given the symbols on its stack and the next symbol: [Error::Conflict] if two steps are called for,
    [Error::UnexpectedToken] if none is, with the symbols for which one is as the expected ones, and otherwise the one. *)
Theorem C121_textbook : forall (T : Type) (OT : Ord T) (dbg : bool) (start eof : T) (rules : rulemap T) (g : grammar T),
  wf_rules rules -> grammar_new dbg start rules eof = Val g ->
  forall k t, makes k dbg g t -> k <> LALR \/ (hands_on t /\ grounded rules start eof t) -> term rules eof -> dbg = true \/ single_start rules start -> dbg = true \/ only_terminals t -> productive rules ->
  forall M (maps : reductmap T M) input d, covers rules maps -> Forall (term rules) (map tk_ty input) -> reaches t input maps d -> d_finished d = false ->
  forall pre x, pre = rev (map tk_ty (d_items d)) -> x = lookahead d ->
  exists fuel d' o, travel fuel d x = Val (d', o) /\
   ((exists s s', calls_for k rules start eof pre x s /\ calls_for k rules start eof pre x s' /\ s <> s') /\ (exists a b, o = Err (ConflictErr a b)) \/
    (forall s, ~ calls_for k rules start eof pre x s) /\ (exists es, o = Err (UnexpectedToken x es) /\ sorted es /\ forall y, In y es <-> exists s, calls_for k rules start eof pre y s) \/
    (exists s, calls_for k rules start eof pre x s /\ (forall s', calls_for k rules start eof pre x s' -> s' = s) /\ does rules maps s d d' o)).
Proof. exact @driver_textbook. Qed.
Print Assumptions C121_textbook.

(** S -> L = R | R; L -> * R | i; R -> L on i = i, after L, with = next: the machines differ *)
Example C121_example : wf_rules assign /\ grammar_new true "Z" assign "$" = Val assign_g /\ (forall k, makes k true assign_g (assign_t k)) /\ term assign "$" /\ productive assign /\
  covers assign (empty_map assign_g) /\ Forall (term assign) (map tk_ty assign_input) /\
  (forall k, reaches (assign_t k) assign_input (empty_map assign_g) (assign_conf k 2) /\ d_finished (assign_conf k 2) = false /\
     map tk_ty (d_items (assign_conf k 2)) = ["L"] /\ lookahead (assign_conf k 2) = "=") /\
  travel 5 (assign_conf SLR 2) "=" = Val (assign_conf SLR 2, Err (ConflictErr (Reduce "R" (["L"], 0)) (Shift 8))) /\
  hands_on (assign_t LALR) /\ grounded assign "Z" "$" (assign_t LALR) /\
  travel 5 (assign_conf CLR 2) "=" = Val (assign_conf CLR 3, Ok) /\ map tk_ty (d_items (assign_conf CLR 3)) = ["="; "L"].
Proof.
  destruct assign_facts as (H1 & H2 & H3 & H4 & _).
  exact (conj H1 (conj H2 (conj H3 (conj H4 (conj assign_productive (conj assign_covers (conj assign_terms (conj assign_reaches assign_differ)))))))).
Qed.
