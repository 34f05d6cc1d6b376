(** C127: every cell of the table is used *)
From Coq Require Import List Bool Arith String.
From Verif Require Import BTree Model Strings Spec SpecP Interface Check Examples Refute Refute2 ValidSpec LiveSpec Live LiveEx.
Import ListNotations.
Local Open Scope string_scope.
Local Open Scope list_scope.
Local Notation length := List.length.

(** ** C127 *)
(** In a table without conflicts over productive rules, every state is on top of the stack during the parse of some sentence. *)
Theorem C127_states : forall (T : Type) (OT : Ord T) (dbg : bool) (start eof : T) (rules : rulemap T) (g : grammar T),
  wf_rules rules -> grammar_new dbg start rules eof = Val g -> forall M (maps : reductmap T M) k t, makes k dbg g t -> term rules eof ->
  k <> LALR \/ carries t -> start_fresh rules start -> single_start rules start -> productive rules -> covers rules maps -> conflicts (t_actions t) = [] ->
  M -> forall q, q < length (t_states t) ->
  exists input d, sentence rules start (map tk_ty input) /\ reaches t input maps d /\ d_finished d = false /\ d_top d = q.
Proof. exact @live_state. Qed.
Print Assumptions C127_states.

(** Clr, and Lalr where no lookahead is made up: every shift, reduce and accept cell is consulted during the parse of some sentence. *)
Theorem C127_cells : forall (T : Type) (OT : Ord T) (dbg : bool) (start eof : T) (rules : rulemap T) (g : grammar T),
  wf_rules rules -> grammar_new dbg start rules eof = Val g -> forall M (maps : reductmap T M) k t, makes k dbg g t -> term rules eof ->
  k <> LALR \/ carries t -> start_fresh rules start -> single_start rules start -> productive rules -> covers rules maps -> conflicts (t_actions t) = [] ->
  M -> dbg = true \/ only_terminals t -> k = CLR \/ (k = LALR /\ grounded rules start eof t) ->
  forall q row x a, nth_error (t_actions t) q = Some row -> bm_get x row = Some a -> (forall n, a <> Goto n) ->
  exists input d, sentence rules start (map tk_ty input) /\ reaches t input maps d /\ d_finished d = false /\ d_top d = q /\ lookahead d = x.
Proof. exact @live_cells. Qed.
Print Assumptions C127_cells.

(** All three methods: every shift cell is, ... *)
Theorem C127_shifts : forall (T : Type) (OT : Ord T) (dbg : bool) (start eof : T) (rules : rulemap T) (g : grammar T),
  wf_rules rules -> grammar_new dbg start rules eof = Val g -> forall M (maps : reductmap T M) k t, makes k dbg g t -> term rules eof ->
  k <> LALR \/ carries t -> start_fresh rules start -> single_start rules start -> productive rules -> covers rules maps -> conflicts (t_actions t) = [] ->
  M -> forall q row x n, nth_error (t_actions t) q = Some row -> bm_get x row = Some (Shift n) ->
  exists input d, sentence rules start (map tk_ty input) /\ reaches t input maps d /\ d_finished d = false /\ d_top d = q /\ lookahead d = x.
Proof. exact @live_shifts. Qed.
Print Assumptions C127_shifts.

(** ... and every goto cell is followed during the parse of some sentence. *)
Theorem C127_gotos : forall (T : Type) (OT : Ord T) (dbg : bool) (start eof : T) (rules : rulemap T) (g : grammar T),
  wf_rules rules -> grammar_new dbg start rules eof = Val g -> forall M (maps : reductmap T M) k t, makes k dbg g t -> term rules eof ->
  k <> LALR \/ carries t -> start_fresh rules start -> single_start rules start -> productive rules -> covers rules maps -> conflicts (t_actions t) = [] ->
  M -> forall q row A n, nth_error (t_actions t) q = Some row -> bm_get A row = Some (Goto n) ->
  exists input d qs it its, sentence rules start (map tk_ty input) /\ reaches t input maps d /\ d_finished d = false /\ d_states d = n :: q :: qs /\ d_items d = it :: its /\ tk_ty it = A.
Proof. exact @live_gotos. Qed.
Print Assumptions C127_gotos.

(** So none of these cells can be spared: without it some sentence is refused. *)
Theorem C127_needed : forall (T : Type) (OT : Ord T) (dbg : bool) (start eof : T) (rules : rulemap T) (g : grammar T),
  wf_rules rules -> grammar_new dbg start rules eof = Val g -> forall M (maps : reductmap T M) k t, makes k dbg g t -> term rules eof ->
  k <> LALR \/ carries t -> start_fresh rules start -> single_start rules start -> productive rules -> covers rules maps -> conflicts (t_actions t) = [] ->
  M -> forall q row x a t', nth_error (t_actions t) q = Some row -> bm_get x row = Some a -> leaves_out q x t t' ->
  (exists n, a = Shift n \/ a = Goto n) \/ (dbg = true \/ only_terminals t) /\ (k = CLR \/ (k = LALR /\ grounded rules start eof t)) ->
  exists input m es, sentence rules start (map tk_ty input) /\ parses t input maps (POk m) /\ parses t' input maps (PErr (UnexpectedToken x es)).
Proof. exact @needed. Qed.
Print Assumptions C127_needed.

(** Z -> S; S -> A a | b A c | d e; A -> d meets the hypotheses with all three methods, *)
Example C127_example : (wf_rules spare /\ grammar_new true "Z" spare "$" = Val spare_g /\ (forall k, makes k true spare_g (spare_t k)) /\ term spare "$") /\
  start_fresh spare "Z" /\ single_start spare "Z" /\ productive spare /\ covers spare (empty_map spare_g) /\ (forall k, conflicts (t_actions (spare_t k)) = []) /\
  carries (spare_t LALR) /\ grounded spare "Z" "$" (spare_t LALR).
Proof. exact spare_facts. Qed.
Print Assumptions C127_example.

(** every table can be had without any of its cells, *)
Example C127_leave_out : forall q x t, leaves_out q x t (cut q x t).
Proof. exact cut_leaves. Qed.
Print Assumptions C127_leave_out.

(** and Slr has cells no sentence needs: after d it reduces by A -> d at c, while c follows A after b only. *)
Example C127_slr_dead : (exists row, nth_error (t_actions (spare_t SLR)) 4 = Some row /\ exists pr, bm_get "c" row = Some (Reduce "A" pr)) /\
  forall input d, sentence spare "Z" (map tk_ty input) -> reaches (spare_t SLR) input (empty_map spare_g) d -> d_top d = 4 -> lookahead d <> "c".
Proof. exact spare_dead. Qed.
Print Assumptions C127_slr_dead.
