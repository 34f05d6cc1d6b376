(** C118: accepted inputs have one parse tree *)
From Coq Require Import List Bool Arith String.
From Verif Require Import BTree Model Strings Spec SpecP Interface Check Examples Refute Unique UniqueEx.
Import ListNotations.
Local Open Scope string_scope.
Local Open Scope list_scope.

(** ** C118 *)
(** Whatever conflicts the table has: an input that is accepted has exactly one parse tree. *)
Theorem C118_accepted_unique : forall (T : Type) (OT : Ord T) (dbg : bool) (start eof : T) (rules : rulemap T) (g : grammar T),
  wf_rules rules -> grammar_new dbg start rules eof = Val g ->
  forall k t, makes k dbg g t -> k <> LALR \/ carries t -> term rules eof -> start_fresh rules start -> dbg = true \/ single_start rules start ->
  forall M (maps : reductmap T M) input m, covers rules maps -> parses t input maps (POk m) ->
  exists tr, tree_of rules start (map tk_ty input) tr /\ forall tr', tree_of rules start (map tk_ty input) tr' -> tr' = tr.
Proof. exact @accepted_unique. Qed.
Print Assumptions C118_accepted_unique.

(** A sentence with two parse trees always ends in [Error::Conflict]. *)
Theorem C118_ambiguous_conflict : forall (T : Type) (OT : Ord T) (dbg : bool) (start eof : T) (rules : rulemap T) (g : grammar T),
  wf_rules rules -> grammar_new dbg start rules eof = Val g ->
  forall k t, makes k dbg g t -> k <> LALR \/ carries t -> term rules eof -> start_fresh rules start -> dbg = true \/ single_start rules start ->
  forall M (maps : reductmap T M) input t1 t2, covers rules maps -> tree_of rules start (map tk_ty input) t1 -> tree_of rules start (map tk_ty input) t2 -> t1 <> t2 ->
  exists a b, parses t input maps (PErr (ConflictErr a b)).
Proof. exact @ambiguous_conflict. Qed.
Print Assumptions C118_ambiguous_conflict.

(** Z -> E; E -> E + E | n: the table has a conflict, n + n is accepted, n + n + n has two trees *)
Example C118_example : wf_rules plus /\ (forall dbg, grammar_new dbg "Z" plus "$" = Val plus_g) /\ term plus "$" /\ start_fresh plus "Z" /\ covers plus (empty_map plus_g) /\
  (forall k, makes k true plus_g (plus_t k) /\ conflicts (t_actions (plus_t k)) <> [] /\ validates (plus_t k) (to_tokens ["n"; "+"; "n"]) true) /\
  tree_of plus "Z" ["n"; "+"; "n"; "+"; "n"] plus_left /\ tree_of plus "Z" ["n"; "+"; "n"; "+"; "n"] plus_right /\ plus_left <> plus_right.
Proof.
  repeat match goal with |- _ /\ _ => split end; try (facts; fail); try apply plus_gE; try apply plus_covers; try apply plus_two.
  intros k. split; [apply plus_makes|]. split; [rewrite plus_conflicts; discriminate|apply plus_accepts].
Qed.

(** The condition on Lalr is needed: Z -> S; S -> A x | D | c A y | c D; A -> a B; B -> b; D -> a b y has no conflict under Lalr, which
    accepts c a b y, with two parse trees. *)
Example C118_lalr : wf_rules hidden /\ (forall dbg, grammar_new dbg "Z" hidden "$" = Val hidden_g) /\ term hidden "$" /\ start_fresh hidden "Z" /\
  makes LALR true hidden_g (hidden_t LALR) /\ conflicts (t_actions (hidden_t LALR)) = [] /\ validates (hidden_t LALR) (to_tokens ["c"; "a"; "b"; "y"]) true /\
  tree_of hidden "Z" ["c"; "a"; "b"; "y"] hidden_short /\ tree_of hidden "Z" ["c"; "a"; "b"; "y"] hidden_long /\ hidden_short <> hidden_long.
Proof.
  repeat match goal with |- _ /\ _ => split end; try (facts; fail); try apply hidden_gE; try apply hidden_two.
  - apply hidden_makes.
  - exact hidden_clean.
  - exact hidden_accepts.
Qed.
