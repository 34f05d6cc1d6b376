(** C134, and exactly when the claims C82, C83 and C103 hold *)
From Coq Require Import List Bool Arith String.
From Verif Require Import BTree Model Show Strings Trace Grammars Spec SpecP Interface Check Examples Refute Refute2 Refute3 StatesSpec TextSpec Text TextEx TextP ValidSpec UsedSpec Used Reduces UsedEx.
Import ListNotations.
Local Open Scope string_scope.
Local Open Scope list_scope.

(** ** C134 *)
(** A table's states hold the alternatives met from the first alternative of the start symbol, each with the dot at every place, and no others ... *)
Theorem C134_items : forall (T : Type) (OT : Ord T) (dbg : bool) (start eof : T) (rules : rulemap T) (g : grammar T),
  wf_rules rules -> grammar_new dbg start rules eof = Val g -> forall k t, makes k dbg g t ->
  forall A i u v, (exists q, item_in t q A i u v) <-> met rules start A i (u ++ v).
Proof. exact @items_met. Qed.
Print Assumptions C134_items.

(** ... and its rows have moves over exactly the symbols that occur in those. *)
Theorem C134_moves : forall (T : Type) (OT : Ord T) (dbg : bool) (start eof : T) (rules : rulemap T) (g : grammar T),
  wf_rules rules -> grammar_new dbg start rules eof = Val g -> forall k t, makes k dbg g t ->
  forall X, (exists q n, moves t q X n) <-> exists A i u v, met rules start A i (u ++ X :: v).
Proof. exact @moves_met. Qed.
Print Assumptions C134_moves.

(** Z -> A | b; A -> a c; U -> A y | A y *)
Example C134_example : wf_rules spare /\ grammar_new false "Z" spare "$" = Val spare_g /\ (forall k, makes k false spare_g (spare_t k) /\ item_in (spare_t k) 2 "A" 0 ["a"] ["c"]) /\
  met spare "Z" "A" 0 ["a"; "c"] /\ (forall A i rhs, met spare "Z" A i rhs -> In (A, i, rhs) [("Z", 0, ["A"]); ("A", 0, ["a"; "c"])]).
Proof. exact (conj spare_wf (conj spare_gE (conj (fun k => conj (spare_makes k) (spare_items k)) (conj spare_A spare_met)))). Qed.

(** If every nonterminal derives a sentence, it reduces by exactly those, the start symbol's aside: *)
Theorem C134_reduces : forall (T : Type) (OT : Ord T) (dbg : bool) (start eof : T) (rules : rulemap T) (g : grammar T),
  wf_rules rules -> grammar_new dbg start rules eof = Val g -> term rules eof -> forall k t, makes k dbg g t -> productive rules ->
  forall A i rhs, A <> start ->
  ((exists q row x a, nth_error (t_actions t) q = Some row /\ bm_get x row = Some a /\ inside (Reduce A (rhs, i)) a) <-> met rules start A i rhs).
Proof. exact @reduces_met. Qed.
Print Assumptions C134_reduces.

(** by Clr, and by Lalr if it carries lookaheads on, in the columns of the terminals that follow the alternative where it is met ... *)
Theorem C134_columns : forall (T : Type) (OT : Ord T) (dbg : bool) (start eof : T) (rules : rulemap T) (g : grammar T),
  wf_rules rules -> grammar_new dbg start rules eof = Val g -> term rules eof -> forall k t, makes k dbg g t -> k = CLR \/ k = LALR /\ carries t ->
  forall A i rhs x, A <> start -> term rules x ->
  ((exists q row a, nth_error (t_actions t) q = Some row /\ bm_get x row = Some a /\ inside (Reduce A (rhs, i)) a) <-> met_look rules start eof A i rhs x).
Proof. exact @columns_exact. Qed.
Print Assumptions C134_columns.

(** ... accepting in those of the terminals that follow some alternative of the start symbol; *)
Theorem C134_accepts : forall (T : Type) (OT : Ord T) (dbg : bool) (start eof : T) (rules : rulemap T) (g : grammar T),
  wf_rules rules -> grammar_new dbg start rules eof = Val g -> term rules eof -> forall k t, makes k dbg g t -> k = CLR \/ k = LALR /\ carries t ->
  forall x, term rules x ->
  ((exists q row a, nth_error (t_actions t) q = Some row /\ bm_get x row = Some a /\ inside Acc a) <-> exists i rhs, met_look rules start eof start i rhs x).
Proof. exact @accept_exact. Qed.
Print Assumptions C134_accepts.

(** by Lalr in any case in no others. *)
Theorem C134_no_others : forall (T : Type) (OT : Ord T) (dbg : bool) (start eof : T) (rules : rulemap T) (g : grammar T),
  wf_rules rules -> grammar_new dbg start rules eof = Val g -> forall k t, makes k dbg g t -> k <> SLR ->
  forall q row x a A i rhs, term rules x -> nth_error (t_actions t) q = Some row -> bm_get x row = Some a -> inside (Reduce A (rhs, i)) a ->
  met_look rules start eof A i rhs x.
Proof. exact @columns_sound. Qed.
Print Assumptions C134_no_others.

(** Slr, in a debug build, in those of FOLLOW. *)
Theorem C134_slr : forall (T : Type) (OT : Ord T) (dbg : bool) (start eof : T) (rules : rulemap T) (g : grammar T),
  wf_rules rules -> grammar_new dbg start rules eof = Val g -> term rules eof -> forall k t, makes k dbg g t -> k = SLR -> dbg = true \/ only_terminals t ->
  forall A i rhs x, A <> start -> term rules x ->
  ((exists q row a, nth_error (t_actions t) q = Some row /\ bm_get x row = Some a /\ inside (Reduce A (rhs, i)) a) <->
   met rules start A i rhs /\ follow_rules rules start eof A x).
Proof. exact @columns_slr. Qed.
Print Assumptions C134_slr.

Example C134_slr_example : wf_rules calc /\ grammar_new true "Z" calc "$" = Val (calc_g true) /\ term calc "$" /\ makes SLR true (calc_g true) (calc_tab SLR) /\
  met calc "Z" "T" 0 ["n"] /\ follow_rules calc "Z" "$" "T" "+".
Proof. exact (conj calc_wf (conj (calc_gE true) (conj calc_eof (conj (calc_makes SLR) calc_T)))). Qed.

(** Slr reduces by an alternative of [spare] before a terminal that only follows it elsewhere; Z -> a Z b | A; A -> c reduces A -> c before b alone *)
Example C134_reduces_example :
  (wf_rules spare /\ grammar_new false "Z" spare "$" = Val spare_g /\ (forall k, makes k false spare_g (spare_t k)) /\ productive spare /\ carries (spare_t LALR) /\
   exists row, nth_error (t_actions (spare_t SLR)) 3 = Some row /\ bm_get "y" row = Some (Reduce "A" (["a"; "c"], 0))) /\
  (wf_rules inner /\ grammar_new false "Z" inner "$" = Val inner_g /\ (forall k, makes k false inner_g (inner_t k)) /\ term inner "$" /\ productive inner /\ carries (inner_t LALR) /\
   met_look inner "Z" "$" "A" 0 ["c"] "b" /\ forall x, met_look inner "Z" "$" "A" 0 ["c"] x -> x = "b").
Proof.
  exact (conj (conj spare_wf (conj spare_gE (conj spare_makes (conj spare_productive (conj spare_carries spare_y)))))
    (conj inner_wf (conj inner_gE (conj inner_makes (conj inner_eof (conj inner_productive (conj inner_carries (conj inner_b inner_A)))))))).
Qed.

(** ** C82 *)
(** One [reduce_equals] leaves no two equal rows exactly if rows that do the same, states with equal rows counting as one, are equal. *)
Theorem C82_exact : forall (T : Type) (OT : Ord T) (dbg : bool) (start eof : T) (rules : rulemap T) (g : grammar T),
  wf_rules rules -> grammar_new dbg start rules eof = Val g -> forall k t, makes k dbg g t -> forall t', reduce_equals dbg t = Val t' ->
  (NoDup (t_actions t') <-> forall r r', In r (t_actions t) -> In r' (t_actions t) -> rows_as_if t r r' -> r = r').
Proof. exact @leaves_none_exact. Qed.
Print Assumptions C82_exact.

(** ** C83 *)
(** Every kernel leads to a state with a row after [reduce_equals] exactly if no two rows were equal before. *)
Theorem C83_exact : forall (T : Type) (OT : Ord T) (dbg : bool) (start eof : T) (rules : rulemap T) (g : grammar T),
  wf_rules rules -> grammar_new dbg start rules eof = Val g -> forall k t, makes k dbg g t -> forall t', reduce_equals dbg t = Val t' ->
  ((forall kernel q, In (kernel, q) (t_kernels t') -> exists row, nth_error (t_actions t') q = Some row) <-> NoDup (t_actions t)).
Proof. exact @kernels_exact. Qed.
Print Assumptions C83_exact.

(** for the grammar of C25 the first is true and the second false, for that of C82 both are false, for calc both true *)
Example C82_C83_exact_example :
  (wf_rules shrink /\ grammar_new true "Z" shrink "$" = Val shrink_g /\ makes CLR true shrink_g shrink_t /\ reduce_equals true shrink_t = Val shrink_r /\
   ~ NoDup (t_actions shrink_t) /\ NoDup (t_actions shrink_r)) /\
  (wf_rules shrink2 /\ grammar_new true "Z" shrink2 "$" = Val shrink2_g /\ makes CLR true shrink2_g shrink2_t /\ reduce_equals true shrink2_t = Val shrink2_r /\
   ~ NoDup (t_actions shrink2_r)) /\
  (wf_rules calc /\ grammar_new true "Z" calc "$" = Val (calc_g true) /\ forall k, makes k true (calc_g true) (calc_tab k) /\ NoDup (t_actions (calc_tab k))).
Proof.
  exact (conj (conj (proj1 shrink_facts) (conj (proj1 (proj2 shrink_facts)) (conj (proj1 (proj2 (proj2 shrink_facts))) (conj shrink_rE shrink_rows))))
    (conj (conj shrink2_wf (conj shrink2_gE (conj shrink2_makes (conj shrink2_reduce shrink2_dup))))
      (conj calc_wf (conj (calc_gE true) (fun k => conj (calc_makes k) (calc_distinct k)))))).
Qed.

(** ** C103 *)
(** The text of a state tells its positions if no alternative that is met is written twice in its rule, between tables too; *)
Theorem C103_met : forall (T : Type) (OT : Ord T) (dbg : bool) (start eof : T) (rules : rulemap T) (g : grammar T),
  wf_rules rules -> grammar_new dbg start rules eof = Val g -> forall show : T -> string, legible show ->
  forall k k' t t' q q' row row', no_met_twins rules start -> makes k dbg g t -> makes k' dbg g t' ->
  nth_error (t_states t) q = Some row -> nth_error (t_states t') q' = Some row' -> state_text show row = state_text show row' -> row = row'.
Proof. exact @met_states. Qed.
Print Assumptions C103_met.

(** under Slr and Clr no state holds two positions with one text exactly then. *)
Theorem C103_exact : forall (T : Type) (OT : Ord T) (dbg : bool) (start eof : T) (rules : rulemap T) (g : grammar T),
  wf_rules rules -> grammar_new dbg start rules eof = Val g -> forall show : T -> string, legible show -> forall k t, makes k dbg g t -> k <> LALR ->
  ((forall q row pos pos', nth_error (t_states t) q = Some row -> In pos row -> In pos' row -> pos_text show pos = pos_text show pos' -> pos = pos') <->
   no_met_twins rules start).
Proof. exact @texts_exact. Qed.
Print Assumptions C103_exact.

Example C103_exact_example : legible str_debug /\
  (wf_rules spare /\ grammar_new false "Z" spare "$" = Val spare_g /\ (forall k, makes k false spare_g (spare_t k)) /\ no_met_twins spare "Z" /\ ~ no_twins spare) /\
  (wf_rules twin /\ grammar_new true "Z" twin "$" = Val twin_g /\ (forall k, makes k true twin_g (tab k true 60 twin_g)) /\ ~ no_met_twins twin "Z").
Proof.
  exact (conj str_legible (conj (conj spare_wf (conj spare_gE (conj spare_makes spare_twins)))
    (conj (proj1 twin_base) (conj (proj2 twin_base) (conj twin_makes twin_met))))).
Qed.
