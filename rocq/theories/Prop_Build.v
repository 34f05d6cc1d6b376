(** C07, C08, C09, C26, C41, C42 *)
From Coq Require Import List Bool Arith String.
From Verif Require Import BTree Model Strings Spec Interface Wrap Final Check Export Examples Refute.
Import ListNotations.
Local Open Scope string_scope.

(** ** C07, C08, C09: construction from a [Tabler] returns, in debug and release builds *)
Theorem C07_clr_total : forall (T : Type) (OT : Ord T) (dbg : bool) (start eof : T) (rules : rulemap T) (g : grammar T),
  wf_rules rules -> grammar_new dbg start rules eof = Val g -> forall t, tabler_makes dbg g t ->
  exists N t', (forall fuel, N <= fuel -> with_table CLR dbg fuel t = Val t') /\ makes CLR dbg g t'.
Proof. exact (fun T OT dbg start eof rules g W Hg => with_table_total dbg start eof rules g W Hg CLR). Qed.
Print Assumptions C07_clr_total.

Theorem C08_slr_total : forall (T : Type) (OT : Ord T) (dbg : bool) (start eof : T) (rules : rulemap T) (g : grammar T),
  wf_rules rules -> grammar_new dbg start rules eof = Val g -> forall t, tabler_makes dbg g t ->
  exists N t', (forall fuel, N <= fuel -> with_table SLR dbg fuel t = Val t') /\ makes SLR dbg g t'.
Proof. exact (fun T OT dbg start eof rules g W Hg => with_table_total dbg start eof rules g W Hg SLR). Qed.
Print Assumptions C08_slr_total.

Theorem C09_lalr_total : forall (T : Type) (OT : Ord T) (dbg : bool) (start eof : T) (rules : rulemap T) (g : grammar T),
  wf_rules rules -> grammar_new dbg start rules eof = Val g -> forall t, tabler_makes dbg g t ->
  exists N t', (forall fuel, N <= fuel -> with_table LALR dbg fuel t = Val t') /\ makes LALR dbg g t'.
Proof. exact (fun T OT dbg start eof rules g W Hg => with_table_total dbg start eof rules g W Hg LALR). Qed.
Print Assumptions C09_lalr_total.

Example C07_C08_C09_example : wf_rules calc /\ grammar_new true "Z" calc "$" = Val (calc_g true) /\ tabler_makes true (calc_g true) calc_t0 /\
  List.length (t_states (calc_tab SLR)) = 9 /\ List.length (t_states (calc_tab CLR)) = 16 /\ List.length (t_states (calc_tab LALR)) = 9.
Proof. split; [exact calc_wf|]. split; [exact (calc_gE true)|]. split; [exact calc_t0M|]. split; [check|]. split; check. Qed.

(** ** C26: the action table.  [decides k t go q x b] says that some position of state [q] calls
    for [b] on [x]; an entry contains exactly the actions called for, and is a [Conflict] exactly
    when two different ones are. *)
Theorem C26_conflicts_exact : forall (T : Type) (OT : Ord T) (dbg : bool) (start eof : T) (rules : rulemap T) (g : grammar T),
  wf_rules rules -> grammar_new dbg start rules eof = Val g -> forall k t, makes k dbg g t ->
  exists go, transitions k t go /\ List.length (t_actions t) = List.length (t_states t) /\
  forall q row, nth_error (t_actions t) q = Some row ->
    msorted row /\
    (forall x b, (exists a, bm_get x row = Some a /\ inside b a) <-> decides k t go q x b) /\
    (forall x, (exists a b, bm_get x row = Some (Conflict a b)) <-> (exists a b, decides k t go q x a /\ decides k t go q x b /\ a <> b)).
Proof. exact @table_exact. Qed.
Print Assumptions C26_conflicts_exact.

Example C26_example : wf_rules calc /\ grammar_new true "Z" calc "$" = Val (calc_g true) /\ makes LALR true (calc_g true) (calc_tab LALR) /\
  (* and a table with a conflict *)
  makes CLR true hidden_g (tab CLR true 60 hidden_g) /\ conflicts (t_actions (tab CLR true 60 hidden_g)) <> [].
Proof. exact (conj calc_wf (conj (calc_gE true) (conj (calc_makes LALR) (conj (hidden_makes CLR) hidden_clr)))). Qed.

(** ** C41: construction is deterministic: the result does not depend on the fuel of the model *)
Theorem C41_deterministic : forall (T : Type) (OT : Ord T) (dbg : bool) (g : grammar T),
  (forall t1 t2, tabler_makes dbg g t1 -> tabler_makes dbg g t2 -> t1 = t2) /\
  (forall k t1 t2, makes k dbg g t1 -> makes k dbg g t2 -> t1 = t2) /\
  (forall t M (input : list (token T M)) maps r1 r2, parses t input maps r1 -> parses t input maps r2 -> r1 = r2).
Proof. exact @deterministic. Qed.
Print Assumptions C41_deterministic.

(** ** C42: what a debug build constructs, a release build constructs too *)
Theorem C42_debug_release : forall (T : Type) (OT : Ord T) (start eof : T) (rules : rulemap T) (g : grammar T),
  grammar_new true start rules eof = Val g -> grammar_new false start rules eof = Val g /\
  (forall t, tabler_makes true g t -> tabler_makes false g t) /\ (forall k t, makes k true g t -> makes k false g t).
Proof. exact @debug_release. Qed.
Print Assumptions C42_debug_release.

Example C41_C42_example : grammar_new true "Z" calc "$" = Val (calc_g true) /\ (forall k, makes k true (calc_g true) (calc_tab k)).
Proof. exact (conj (calc_gE true) calc_makes). Qed.
