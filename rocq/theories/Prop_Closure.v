(** C06, C29, C31 *)
From Coq Require Import List Bool Arith String.
From Verif Require Import BTree Model Strings Spec Interface Merged Wrap Final Check Export Examples.
Import ListNotations.
Local Open Scope string_scope.

(** ** C06: [prop_closure] returns the least closed set above its seed, and is idempotent.
    [closure_fn k] is the closure function of method [k]; [closure_of] is the inductive closure. *)
Theorem C06_closure : forall (T : Type) (OT : Ord T) (dbg : bool) (start eof : T) (rules : rulemap T) (g : grammar T),
  wf_rules rules -> grammar_new dbg start rules eof = Val g ->
  forall k t, tabler_makes dbg g t -> forall seed, sorted seed -> (forall p, In p seed -> valid_pos g p) ->
  exists N c, (forall fuel, N <= fuel -> prop_closure (closure_fn k t) fuel seed = Val c) /\ sorted c /\
    (forall p, In p c <-> closure_of k t (fun p => In p seed) p) /\
    (forall fuel, 0 < fuel -> prop_closure (closure_fn k t) fuel c = Val c).
Proof. exact @closure_exact. Qed.
Print Assumptions C06_closure.

Example C06_example : wf_rules calc /\ grammar_new true "Z" calc "$" = Val (calc_g true) /\ tabler_makes true (calc_g true) calc_t0 /\
  sorted [g_basis (calc_g true)] /\ (forall p, In p [g_basis (calc_g true)] -> valid_pos (calc_g true) p) /\
  exists c, prop_closure (closure_fn CLR calc_t0) 20 [g_basis (calc_g true)] = Val c /\ List.length c = 9.
Proof.
  split; [exact calc_wf|]. split; [exact (calc_gE true)|]. split; [exact calc_t0M|]. split; [exact calc_seed_sorted|]. split; [exact calc_seed_valid|].
  eexists. split; check.
Qed.

(** ** C29: [merged] *)
Theorem C29_merged : forall (T : Type) (OT : Ord T) (s : state T),
  sorted (merged s) /\
  (forall p q, In p (merged s) -> In q (merged s) -> p_rule p = p_rule q -> p_seq p = p_seq q -> p_point p = p_point q -> p = q) /\
  (forall A pr i, (exists l, In (mkPos A pr i l) (merged s)) <-> (exists l, In (mkPos A pr i l) s)) /\
  (forall A pr i l x, In (mkPos A pr i l) (merged s) -> (In x l <-> exists l', In (mkPos A pr i l') s /\ In x l')) /\
  ((forall p, In p s -> sorted (p_look p)) -> forall p, In p (merged s) -> sorted (p_look p)).
Proof. exact @merged_exact. Qed.
Print Assumptions C29_merged.

Example C29_example :
  merged [mkPos "A" (["x"], 0) 1 ["a"]; mkPos "A" (["x"], 0) 1 ["b"; "c"]; mkPos "B" (["x"], 0) 1 ["d"]] =
  [mkPos "A" (["x"], 0) 1 ["a"; "b"; "c"]; mkPos "B" (["x"], 0) 1 ["d"]].
Proof. check. Qed.

(** ** C31: [transitive] *)
Theorem C31_transitive : forall (A : Type) (OA : Ord A) (f : A -> A),
  (forall fuel seed v, transitive fuel seed (fun x => Val (f x)) = Val v ->
     f v = v /\ exists n, v = Nat.iter n f seed /\ forall m, m < n -> Nat.iter (S m) f seed <> Nat.iter m f seed) /\
  (forall seed n, f (Nat.iter n f seed) = Nat.iter n f seed -> exists fuel v, transitive fuel seed (fun x => Val (f x)) = Val v).
Proof. exact (fun A OA f => conj (transitive_iter f) (transitive_returns f)). Qed.
Print Assumptions C31_transitive.

Example C31_example : transitive 10 (["a"; "b"; "c"] : list string) (fun l => Val (tl l)) = Val [].
Proof. check. Qed.
