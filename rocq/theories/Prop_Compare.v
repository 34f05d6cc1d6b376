(** C124: the three parsers of one grammar on one input *)
From Coq Require Import List Bool Arith String.
From Verif Require Import BTree Model Strings Spec SpecP Interface Check Examples Refute Refute2 LR1Spec ValidSpec CompareSpec Compare CompareEx.
Import ListNotations.
Local Open Scope string_scope.
Local Open Scope list_scope.

(** ** C124 *)
(** Whatever conflicts the tables have: unless the parser of the weaker method stops with [Error::Conflict], the one
    of the stronger method gives the same answer, and stops in front of the same token; and unless the
    stronger stops with [Error::UnexpectedToken], the weaker one stops with a conflict or gives the same answer. *)
Theorem C124_methods : forall (T : Type) (OT : Ord T) (dbg : bool) (start eof : T) (rules : rulemap T) (g : grammar T),
  wf_rules rules -> grammar_new dbg start rules eof = Val g ->
  forall k1 k2 t1 t2, makes k1 dbg g t1 -> makes k2 dbg g t2 -> weaker k1 k2 ->
  k1 <> LALR \/ (hands_on t1 /\ grounded rules start eof t1) -> k2 <> LALR \/ (hands_on t2 /\ grounded rules start eof t2) ->
  term rules eof -> dbg = true \/ single_start rules start -> dbg = true \/ only_terminals t1 -> dbg = true \/ only_terminals t2 -> productive rules -> start_fresh rules start ->
  forall M (maps : reductmap T M) input, covers rules maps -> Forall (term rules) (map tk_ty input) ->
  (forall r1, parses t1 input maps r1 -> (exists a b, r1 = PErr (ConflictErr a b)) \/ exists r2, parses t2 input maps r2 /\ agree r1 r2) /\
  (forall r2, parses t2 input maps r2 -> (exists x es, r2 = PErr (UnexpectedToken x es)) \/
     exists r1, parses t1 input maps r1 /\ ((exists a b, r1 = PErr (ConflictErr a b)) \/ agree r1 r2)) /\
  (forall rest x es, fails t1 input maps rest (UnexpectedToken x es) -> exists es', fails t2 input maps rest (UnexpectedToken x es')).
Proof. exact @methods_agree. Qed.
Print Assumptions C124_methods.

(** Z -> S; S -> A x | B y | d A z | e B z; A -> c; B -> c: the same value for c x, the same error for c c,
    a conflict under Slr alone for c z *)
Example C124_example : (wf_rules clash /\ grammar_new true "Z" clash "$" = Val clash_g /\ (forall k, makes k true clash_g (clash_t k)) /\ term clash "$" /\ start_fresh clash "Z" /\
  productive clash /\ covers clash (empty_map clash_g) /\ hands_on (clash_t LALR) /\ grounded clash "Z" "$" (clash_t LALR)) /\
  (forall k, parses (clash_t k) (clash_in "x") (empty_map clash_g) (POk tt)) /\
  parses (clash_t SLR) (clash_in "c") (empty_map clash_g) (PErr (UnexpectedToken "c" ["x"; "y"; "z"])) /\
  parses (clash_t CLR) (clash_in "c") (empty_map clash_g) (PErr (UnexpectedToken "c" ["x"; "y"])) /\
  parses (clash_t SLR) (clash_in "z") (empty_map clash_g) (PErr (ConflictErr (Reduce "A" (["c"], 0)) (Reduce "B" (["c"], 0)))) /\
  parses (clash_t CLR) (clash_in "z") (empty_map clash_g) (PErr (UnexpectedToken "z" ["x"; "y"])).
Proof. exact (conj clash_facts clash_runs). Qed.
