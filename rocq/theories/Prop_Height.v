(** C126: how high the stack gets *)
From Coq Require Import List Bool Arith String.
From Verif Require Import BTree Model Strings Spec SpecP Interface Check Examples Refute Refute2 HeightSpec Height HeightEx.
Import ListNotations.
Local Open Scope string_scope.
Local Open Scope list_scope.
Local Notation length := List.length.

(** ** C126 *)
(** If the rules recur at the left end only, the stack stays below a bound that depends on the rules and not on the input. *)
Theorem C126_bounded : forall (T : Type) (OT : Ord T) (dbg : bool) (start eof : T) (rules : rulemap T) (g : grammar T),
  wf_rules rules -> grammar_new dbg start rules eof = Val g -> forall M (maps : reductmap T M) k t, makes k dbg g t -> term rules eof ->
  forall n input d, left_only rules start -> widest rules n -> Forall (term rules) (map tk_ty input) -> reaches t input maps d ->
  length (d_items d) <= length rules * (n - 1) + 1.
Proof. exact @height_bound. Qed.
Print Assumptions C126_bounded.

(** To see that they do, rank the symbols. *)
Theorem C126_ranked : forall (T : Type) (OT : Ord T) (rules : rulemap T) start rank, left_ranked rules rank -> left_only rules start.
Proof. exact @ranked_left. Qed.
Print Assumptions C126_ranked.

(** Whatever the rules, the stack holds at most one symbol for each token taken from the input. *)
Theorem C126_tokens : forall (T : Type) (OT : Ord T) (dbg : bool) (start eof : T) (rules : rulemap T) (g : grammar T),
  wf_rules rules -> grammar_new dbg start rules eof = Val g -> forall M (maps : reductmap T M) k t, makes k dbg g t -> term rules eof ->
  forall input d, Forall (term rules) (map tk_ty input) -> reaches t input maps d -> length (d_items d) + length (d_buffer d) <= length input.
Proof. exact @height_tokens. Qed.
Print Assumptions C126_tokens.

(** A stack is what a way down from the start symbol leaves to the left, followed by the beginning of a right-hand side ... *)
Theorem C126_shape : forall (T : Type) (OT : Ord T) (dbg : bool) (start eof : T) (rules : rulemap T) (g : grammar T),
  wf_rules rules -> grammar_new dbg start rules eof = Val g -> forall M (maps : reductmap T M) k t, makes k dbg g t -> term rules eof ->
  forall input d, Forall (term rules) (map tk_ty input) -> reaches t input maps d ->
  exists A i rhs a p, prod_at rules A i rhs /\ (A = start /\ a = [] \/ down rules start a A) /\ rev (map tk_ty (d_items d)) = a ++ firstn p rhs.
Proof. exact @height_shape. Qed.
Print Assumptions C126_shape.

(** ... and if the table has no conflicts, every way down is the stack of a parse of some sentence; *)
Theorem C126_viable : forall (T : Type) (OT : Ord T) (dbg : bool) (start eof : T) (rules : rulemap T) (g : grammar T),
  wf_rules rules -> grammar_new dbg start rules eof = Val g -> forall M (maps : reductmap T M) k t, makes k dbg g t -> term rules eof ->
  k <> LALR \/ carries t -> start_fresh rules start -> single_start rules start -> productive rules -> covers rules maps -> conflicts (t_actions t) = [] ->
  M -> forall a A, down rules start a A -> exists input d, sentence rules start (map tk_ty input) /\ reaches t input maps d /\ rev (map tk_ty (d_items d)) = a.
Proof. exact @height_viable. Qed.
Print Assumptions C126_viable.

(** so any other recursion within reach makes the stack as high as one likes. *)
Theorem C126_unbounded : forall (T : Type) (OT : Ord T) (dbg : bool) (start eof : T) (rules : rulemap T) (g : grammar T),
  wf_rules rules -> grammar_new dbg start rules eof = Val g -> forall M (maps : reductmap T M) k t, makes k dbg g t -> term rules eof ->
  k <> LALR \/ carries t -> start_fresh rules start -> single_start rules start -> productive rules -> covers rules maps -> conflicts (t_actions t) = [] ->
  M -> forall a A u, down rules start a A -> down rules A u A -> u <> [] ->
  forall n, exists input d, sentence rules start (map tk_ty input) /\ reaches t input maps d /\ n <= length (d_items d).
Proof. exact @height_unbounded. Qed.
Print Assumptions C126_unbounded.

(** Z -> L; L -> L , x | x: never more than five symbols *)
Example C126_bounded_example : wf_rules row /\ grammar_new true "Z" row "$" = Val row_g /\ (forall k, makes k true row_g (row_t k)) /\ term row "$" /\
  left_only row "Z" /\ widest row 3.
Proof. exact row_facts. Qed.
Print Assumptions C126_bounded_example.

(** Z -> a Y; Y -> b c: the bound, three symbols, is attained *)
Example C126_tight_example : wf_rules tight /\ grammar_new true "Z" tight "$" = Val tight_g /\ (forall k, makes k true tight_g (tight_t k)) /\ term tight "$" /\
  left_only tight "Z" /\ widest tight 2 /\ Forall (term tight) (map tk_ty tight_in) /\
  forall k, reaches (tight_t k) tight_in (empty_map tight_g) (tight_d k 3) /\ length (d_items (tight_d k 3)) = length tight * (2 - 1) + 1.
Proof. exact tight_facts. Qed.
Print Assumptions C126_tight_example.

(** Z -> S; S -> ( S ) | x: no bound *)
Example C126_unbounded_example : (wf_rules nest /\ grammar_new true "Z" nest "$" = Val nest_g /\ (forall k, makes k true nest_g (nest_t k)) /\ term nest "$") /\
  start_fresh nest "Z" /\ single_start nest "Z" /\ productive nest /\ covers nest (empty_map nest_g) /\ (forall k, conflicts (t_actions (nest_t k)) = []) /\ carries (nest_t LALR) /\
  down nest "Z" [] "S" /\ down nest "S" ["("] "S".
Proof. exact nest_facts. Qed.
Print Assumptions C126_unbounded_example.
