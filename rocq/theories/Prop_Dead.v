(** C122: Clr's parsers do not see rules out of reach *)
From Coq Require Import List Bool Arith String.
From Verif Require Import BTree Model Strings Spec SpecP Interface Check Examples Refute Refute2 LR1Spec ValidSpec Dead DeadEx.
Import ListNotations.
Local Open Scope string_scope.
Local Open Scope list_scope.

(** ** C122 *)
(** Two grammars that give the same rules to every symbol the start symbol can derive: Clr's tables are both free
    of conflicts or neither is, and their parsers answer every input alike - same value, or same error with the same
    expected symbols (only the two actions named in an [Error::Conflict] may differ). *)
Theorem C122_unreachable : forall (T : Type) (OT : Ord T) (dbg dbg' : bool) (start eof : T) (r1 r2 : rulemap T) (g1 g2 : grammar T) (t1 t2 : tabler T),
  wf_rules r1 -> wf_rules r2 -> same_from start r1 r2 ->
  grammar_new dbg start r1 eof = Val g1 -> grammar_new dbg' start r2 eof = Val g2 -> makes CLR dbg g1 t1 -> makes CLR dbg' g2 t2 ->
  term r1 eof -> term r2 eof -> dbg = true \/ single_start r1 start -> dbg' = true \/ single_start r2 start ->
  dbg = true \/ only_terminals t1 -> dbg' = true \/ only_terminals t2 -> productive r1 -> productive r2 ->
  (conflicts (t_actions t1) = [] <-> conflicts (t_actions t2) = []) /\
  forall M (maps : reductmap T M) input, covers r1 maps -> covers r2 maps -> Forall (term r1) (map tk_ty input) -> Forall (term r2) (map tk_ty input) ->
  forall r, parses t1 input maps r -> exists r', parses t2 input maps r' /\ same_outcome r r'.
Proof. exact @clr_dead. Qed.
Print Assumptions C122_unreachable.

(** Z -> S; S -> A x | B y; A -> c; B -> c, with and without U -> A y *)
Example C122_example : wf_rules live /\ wf_rules dead /\ same_from "Z" live dead /\ nonterm dead "U" /\ ~ nonterm live "U" /\
  grammar_new true "Z" live "$" = Val live_g /\ grammar_new true "Z" dead "$" = Val dead_g /\ makes CLR true live_g (live_t CLR) /\ makes CLR true dead_g (dead_t CLR) /\
  term live "$" /\ term dead "$" /\ (productive live /\ productive dead) /\ (covers live (empty_map dead_g) /\ covers dead (empty_map dead_g)) /\
  (parses (live_t CLR) (dead_in "y") (empty_map dead_g) (POk tt) /\ parses (dead_t CLR) (dead_in "y") (empty_map dead_g) (POk tt) /\
   parses (live_t CLR) (dead_in "c") (empty_map dead_g) (PErr (UnexpectedToken "c" ["x"; "y"])) /\ parses (dead_t CLR) (dead_in "c") (empty_map dead_g) (PErr (UnexpectedToken "c" ["x"; "y"])) /\
   conflicts (t_actions (live_t CLR)) = [] /\ conflicts (t_actions (dead_t CLR)) = []).
Proof.
  destruct live_facts as (H1 & H2 & H3 & H4 & H5 & H6 & H7 & H8).
  exact (conj H1 (conj H2 (conj live_same (conj dead_U (conj live_U (conj H3 (conj H4 (conj (H5 CLR) (conj (H6 CLR) (conj H7 (conj H8 (conj live_productive (conj live_covers dead_runs))))))))))))).
Qed.

(** Slr's parsers do: U's rule puts y into FOLLOW(A), and the sentence c y ends in a conflict *)
Example C122_slr_sees_them : (forall k, makes k true live_g (live_t k)) /\ (forall k, makes k true dead_g (dead_t k)) /\
  conflicts (t_actions (live_t SLR)) = [] /\ conflicts (t_actions (dead_t SLR)) <> [] /\
  parses (live_t SLR) (dead_in "y") (empty_map dead_g) (POk tt) /\ exists a b, parses (dead_t SLR) (dead_in "y") (empty_map dead_g) (PErr (ConflictErr a b)).
Proof. exact (conj (proj1 (proj2 (proj2 (proj2 (proj2 live_facts))))) (conj (proj1 (proj2 (proj2 (proj2 (proj2 (proj2 live_facts)))))) dead_slr)). Qed.
