(** The tables printed by the [lrp] binary, /repo/src/main.rs: their contents (the text
    layout done by [prettytable] is not modelled). *)
From Coq Require Import List Bool Arith.
From Verif Require Import BTree Model.
Import ListNotations.

Section Show.
Context {T : Type} {OT : Ord T}.

(** [Parser::final_kernel], /repo/src/parser.rs:104-106 (default: [None] here) and
    /repo/src/lalr.rs:47-50 ([Some p] for an [Lalr] with fields [p]) *)
Definition final_kernel (o : option (lalr T)) (kernel : state T) : option (state T) :=
  match o with
  | None => Some kernel
  | Some p => bm_get (without_look kernel) (l_raws p)
  end.

(** [Parser::state_from_kernel], /repo/src/parser.rs:98-101 *)
Definition state_from_kernel (o : option (lalr T)) (t : tabler T) (kernel : state T) : option nat :=
  match final_kernel o kernel with
  | Some fk => bm_get fk (t_kernels t)
  | None => None
  end.

(** [print_tokens_table], /repo/src/main.rs:64-78: name, FIRST, FOLLOW.  [first] and
    [follow] are zipped by position. *)
Definition tokens_table (t : tabler T) : list (T * bset T * bset T) :=
  map (fun '((k, first), follow) => (k, first, follow)) (combine (t_first t) (bm_values (t_follow t))).

(** one cell group of [print_states_table], /repo/src/main.rs:100-113: the row it adds, if any *)
Definition states_cell (o : option (lalr T)) (t : tabler T) (i : nat) (st : state T) (sym : T)
  : res (list (nat * T * state T * nat * state T)) :=
  match sym_filter st sym with
  | [] => Val []
  | kernel =>
      do fk <- expect P_expect (final_kernel o kernel);
      do id <- expect P_expect (state_from_kernel o t fk);
      do c <- expect P_index (nth_error (t_states t) id);
      Val [(i, sym, fk, id, c)]
  end.

(** [print_states_table], /repo/src/main.rs:80-117: the rows after the first; the
    first row needs [states[0]] *)
Definition states_table (o : option (lalr T)) (t : tabler T) : res (list (nat * T * state T * nat * state T)) :=
  do _ <- expect P_index (nth_error (t_states t) 0);
  do rows <- mapM (fun '(i, st) => do cells <- mapM (states_cell o t i st) (g_symbols (t_grammar t)); Val (concat cells))
    (combine (seq 0 (length (t_states t))) (t_states t));
  Val (concat rows).

(** [print_actions_table], /repo/src/main.rs:119-166: columns (terminals, then
    nonterminals) and, per state, the cells *)
Definition actions_columns (t : tabler T) : list T * list T :=
  let g := t_grammar t in
  fold_left (fun '(ts, nts) s => if is_terminal g s then (bs_insert s ts, nts) else (ts, bs_insert s nts)) (g_symbols g) ([], []).
Definition actions_table (t : tabler T) : list (list (option (action T)) * nat * list (option (action T))) :=
  let '(ts, nts) := actions_columns t in
  map (fun '(i, row) => (map (fun x => bm_get x row) ts, i, map (fun x => bm_get x row) nts))
    (combine (seq 0 (length (t_actions t))) (t_actions t)).

(** [Dfa::trace] with an observer that only looks, /repo/src/dfa.rs:146-157: the
    configurations shown to it, and the outcome *)
Fixpoint dfa_trace {M} (fuel : nat) (d : dfa T M) : res (list (dfa T M) * (dfa T M * outcome T)) :=
  match fuel with
  | 0 => Fuel
  | S fuel' =>
      if d_finished d then Val ([], (d, Ok))
      else
        do '(d', o) <- travel fuel' d (lookahead d);
        match o with
        | Ok => do '(l, r) <- dfa_trace fuel' d'; Val (d :: l, r)
        | Err e => Val ([d], (d', Err e))
        end
  end.

(** [Dfa::stack_fmt], /repo/src/dfa.rs:231-247: states and symbol names interleaved,
    bottom first ([d_states] and [d_items] are top first) *)
Fixpoint weave {A B} (l : list A) (m : list B) : list (A + B) :=
  match l, m with
  | [], [] => []
  | a :: l', [] => inl a :: weave l' []
  | [], _ => map inr m
  | a :: l', b :: m' => inl a :: inr b :: weave l' m'
  end.
Definition stack_fmt {M} (d : dfa T M) : list (nat + T) := weave (rev (d_states d)) (rev (map tk_ty (d_items d))).
End Show.
