(** C01 *)
From Coq Require Import List Bool Arith String.
From Verif Require Import BTree Model Strings Spec Interface Wrap Final Check Examples.
Import ListNotations.

(** [Grammar::new] fails exactly when the start rule is missing, has no production or (debug
    builds) has several; otherwise it classifies the symbols.  The rule map is any map in which
    each rule is stored under its own name with its productions numbered in order. *)
Theorem C01_grammar_new : forall (T : Type) (OT : Ord T) (dbg : bool) (start eof : T) (rules : rulemap T), wf_rules rules ->
  (nonterm rules start ->
     ((exists g, grammar_new dbg start rules eof = Val g) <->
      (exists rhs, prod_at rules start 0 rhs) /\ (dbg = true -> single_start rules start))) /\
  (term rules start -> grammar_new dbg start rules eof = Panic P_index) /\
  (forall g, grammar_new dbg start rules eof = Val g ->
     g_rules g = rules /\
     (forall x, In x (g_terminals g) <-> x = eof \/ term rules x /\ exists A i rhs, prod_at rules A i rhs /\ In x rhs) /\
     (forall x, In x (g_symbols g) <-> nonterm rules x \/ In x (g_terminals g)) /\
     sorted (g_terminals g) /\ sorted (g_symbols g) /\
     (forall x, is_terminal g x = true <-> term rules x) /\
     exists rhs, prod_at rules start 0 rhs /\ g_basis g = mkPos start (rhs, 0) 0 [eof]).
Proof.
  exact (fun T OT dbg start eof rules W => conj (grammar_new_ok dbg start eof rules)
    (conj (grammar_new_nostart dbg start eof rules) (fun g Hg => grammar_new_parts dbg start eof rules g W Hg))).
Qed.
Print Assumptions C01_grammar_new.

Example C01_example : wf_rules calc /\ nonterm calc "Z"%string /\ single_start calc "Z"%string /\
  grammar_new true "Z"%string calc "$"%string = Val (calc_g true) /\
  g_terminals (calc_g true) = ["$"; "("; ")"; "+"; "n"]%string /\
  g_symbols (calc_g true) = ["$"; "("; ")"; "+"; "E"; "T"; "Z"; "n"]%string.
Proof. split; [exact calc_wf|]. split; [apply nonterm_b_true; check|]. split; [exact calc_single|]. split; [exact (calc_gE true)|]. split; check. Qed.
