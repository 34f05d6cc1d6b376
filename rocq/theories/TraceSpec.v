(** Shift-reduce parsing on paper *)
From Coq Require Import List.
From Verif Require Import BTree Model Spec Interface Trace.
Import ListNotations.

Section TraceSpec.
Context {T : Type} {OT : Ord T}.

(** what an observer sees: the symbols on the stack, bottom first, and the tokens still to come *)
Definition shown {M} (d : dfa T M) : list T * list T := (rev (map tk_ty (d_items d)), map tk_ty (d_buffer d)).

(** move the next token to the stack, or replace a right-hand side at its end by the nonterminal *)
Inductive shift_reduce (rules : rulemap T) : list T * list T -> list T * list T -> Prop :=
| to_shift s x w : shift_reduce rules (s, x :: w) (s ++ [x], w)
| to_reduce s A i rhs w : prod_at rules A i rhs -> shift_reduce rules (s ++ rhs, w) (s ++ [A], w).

(** each element is related to the next *)
Fixpoint linked {X} (R : X -> X -> Prop) (x : X) (l : list X) : Prop :=
  match l with
  | [] => True
  | y :: l' => R x y /\ linked R y l'
  end.

(** the action table has [a] at state [q] and symbol [x] *)
Definition table_says (t : tabler T) (q : nat) (x : T) (a : option (action T)) : Prop :=
  exists row, nth_error (t_actions t) q = Some row /\ bm_get x row = a.

(** the symbols in a printed stack *)
Fixpoint symbols_of (st : list (nat + T)) : list T :=
  match st with
  | [] => []
  | inl _ :: st => symbols_of st
  | inr x :: st => x :: symbols_of st
  end.

(** a row is addressed by the last state of its stack and the first symbol of its buffer, and
    shows what the table has there *)
Definition addressed (t : tabler T) (r : proc_row T) : Prop :=
  exists st q x w, r_stack r = st ++ [inl q] /\ r_buffer r = x :: w /\ r_address r = (q, x) /\ table_says t q x (r_action r).

(** carrying out the action of a row by hand gives the next row *)
Inductive next_row (rules : rulemap T) (t : tabler T) (r r' : proc_row T) : Prop :=
| next_shift n x w : r_action r = Some (Shift n) -> r_buffer r = x :: w -> w <> [] ->
    r_stack r' = r_stack r ++ [inr x; inl n] -> r_buffer r' = w -> next_row rules t r r'
| next_reduce A rhs i st p tl n : r_action r = Some (Reduce A (rhs, i)) -> prod_at rules A i rhs ->
    r_stack r = st ++ inl p :: tl -> symbols_of tl = rhs -> length tl = 2 * length rhs -> table_says t p A (Some (Goto n)) ->
    r_stack r' = st ++ [inl p; inr A; inl n] -> r_buffer r' = r_buffer r -> next_row rules t r r'.

(** the outcome that goes with the last row *)
Inductive outcome_of (t : tabler T) (eof : T) (r : proc_row T) : outcome T -> Prop :=
| of_none q x row : r_action r = None -> r_address r = (q, x) -> nth_error (t_actions t) q = Some row ->
    outcome_of t eof r (Err (UnexpectedToken x (bm_keys row)))
| of_acc : r_action r = Some Acc -> r_buffer r = [eof] -> outcome_of t eof r Ok
| of_acc_early x y w : r_action r = Some Acc -> r_buffer r = x :: y :: w -> outcome_of t eof r (Err IncompleteExec)
| of_conflict a b : r_action r = Some (Conflict a b) -> outcome_of t eof r (Err (ConflictErr a b))
| of_reduce A rhs i st p tl a b : r_action r = Some (Reduce A (rhs, i)) -> r_stack r = st ++ inl p :: tl -> length tl = 2 * length rhs ->
    table_says t p A (Some (Conflict a b)) -> outcome_of t eof r (Err (ConflictErr a b))
| of_eof n : r_action r = Some (Shift n) -> r_buffer r = [eof] -> outcome_of t eof r (Err UnexpectedEof).
End TraceSpec.
