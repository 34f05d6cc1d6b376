(** [Dfa::trace]: running the parser under the eyes of an observer, and the observer of the
    [lrp] binary *)
From Coq Require Import List.
From Verif Require Import BTree Model Show.
Import ListNotations.

Section Trace.
Context {T : Type} {OT : Ord T} {M : Type}.

(** [Dfa::trace], /repo/src/dfa.rs:147-158.  The observer is called with the state [A] it has
    captured and with the parser, and may change both ([FnMut(&mut Self)]). *)
Fixpoint dfa_trace_with {A} (f : A -> dfa T M -> A * dfa T M) (fuel : nat) (a : A) (d : dfa T M) : res (A * dfa T M * outcome T) :=
  match fuel with
  | 0 => Fuel
  | S fuel' =>
      if d_finished d then Val (a, d, Ok)
      else
        let '(a, d) := f a d in
        do '(d', o) <- travel fuel' d (lookahead d);
        match o with
        | Ok => dfa_trace_with f fuel' a d'
        | Err e => Val (a, d', Err e)
        end
  end.

(** an observer that only looks, as those of [print_proc_dfa], /repo/src/main.rs:180-205, and of
    wop, /repo/wop/src/main.rs:21 *)
Definition looking {A} (f : A -> dfa T M -> A) (a : A) (d : dfa T M) : A * dfa T M := (f a d, d).

(** one row of the table of [print_proc_dfa]: step, stack, buffer, action address, action
    ([None] is printed as "n/a") *)
Record proc_row := mkRow {
  r_step : nat;
  r_stack : list (nat + T);
  r_buffer : list T;
  r_address : nat * T;
  r_action : option (action T)
}.

(** the observer of [print_proc_dfa], /repo/src/main.rs:180-205: a row for the parser it is shown *)
Definition proc_rows (eof : T) (out : list proc_row) (d : dfa T M) : list proc_row :=
  let step := length out + 1 in
  let symbol := match d_buffer d with [] => eof | t :: _ => tk_ty t end in
  let action := match nth_error (d_table d) (d_top d) with Some row => bm_get symbol row | None => None end in
  out ++ [mkRow step (stack_fmt d) (map tk_ty (d_buffer d) ++ [eof]) (d_top d, symbol) action].

(** [print_proc_dfa], /repo/src/main.rs:170-212: the rows, and the outcome shown below them *)
Definition print_proc_dfa (fuel : nat) (d : dfa T M) : res (list proc_row * dfa T M * outcome T) :=
  dfa_trace_with (looking (proc_rows (d_eof d))) fuel [] d.
End Trace.
Arguments proc_row : clear implicits.
