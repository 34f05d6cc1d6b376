(** Items of a table's states, as the textbook writes them (C120, C121). *)
From Coq Require Import List.
From Verif Require Import BTree Model Spec Interface LR1Spec.
Import ListNotations.

Section ValidSpec.
Context {T : Type} {OT : Ord T}.

(** state [q] of the table holds the item [A -> u . v], made of the [i]-th production of [A] *)
Definition item_in (t : tabler T) (q : nat) (A : T) (i : nat) (u v : list T) : Prop :=
  exists row pos, nth_error (t_states t) q = Some row /\ In pos row /\ p_rule pos = A /\ p_seq pos = (u ++ v, i) /\ p_point pos = length u.

(** ... with [x] among its lookaheads *)
Definition item_look (t : tabler T) (q : nat) (A : T) (i : nat) (u v : list T) (x : T) : Prop :=
  exists row pos, nth_error (t_states t) q = Some row /\ In pos row /\ p_rule pos = A /\ p_seq pos = (u ++ v, i) /\ p_point pos = length u /\ In x (p_look pos).

(** the LR(1) item [A -> u . v], [x] is valid after [pre]: [A -> u v] can be the last step of a right
    sentential form that begins with [pre], with [u] the end of [pre] and [x] after [v] *)
Definition valid_look (rules : rulemap T) (start eof : T) (pre : list T) (A : T) (i : nat) (u v : list T) (x : T) : Prop :=
  prod_at rules A i (u ++ v) /\ exists a w, rms rules [start] (a ++ A :: w) /\ Forall (term rules) w /\ pre = a ++ u /\ next eof w = x.

(** ** Lookaheads passed on between the items of a table (C123) *)
(** the lookaheads the LALR(1) construction hands out: the end marker to the start symbol's item, what can begin [Y] to
    the productions of [B] in [A -> u . B Y v], the lookaheads of [A -> u . B] to the productions of [B], and
    those of an item to the item with the dot one further in the next state *)
Inductive passed (rules : rulemap T) (start eof : T) (t : tabler T) : nat -> T -> nat -> list T -> list T -> T -> Prop :=
| pass_start i rhs : item_in t 0 start i [] rhs -> passed rules start eof t 0 start i [] rhs eof
| pass_move q A i u X v x n : passed rules start eof t q A i u (X :: v) x -> moves t q X n -> passed rules start eof t n A i (u ++ [X]) v x
| pass_first q A i u B Y v j rhs x : item_in t q A i u (B :: Y :: v) -> prod_at rules B j rhs -> first_spec rules Y x -> passed rules start eof t q B j [] rhs x
| pass_last q A i u B j rhs x : passed rules start eof t q A i u [B] x -> prod_at rules B j rhs -> passed rules start eof t q B j [] rhs x.

(** no transition of the table loses a lookahead *)
Definition hands_on (t : tabler T) : Prop :=
  forall q A i u X v x n, item_look t q A i u (X :: v) x -> moves t q X n -> item_look t n A i (u ++ [X]) v x.

(** every lookahead of the table has been handed out that way *)
Definition grounded (rules : rulemap T) (start eof : T) (t : tabler T) : Prop :=
  forall q A i u v x, item_look t q A i u v x -> passed rules start eof t q A i u v x.

(** [x] is an LALR(1) lookahead of [A -> u . v] after [pre]: an LR(1) lookahead after [pre] or after some
    prefix that leads to the same LR(0) state *)
Definition lalr1_look (rules : rulemap T) (start eof : T) (pre : list T) (A : T) (i : nat) (u v : list T) (x : T) : Prop :=
  exists pre', same_items rules start pre pre' /\ valid_look rules start eof pre' A i u v x.

(** the lookaheads of the table Lalr builds are exactly those *)
Definition exact_looks (start eof : T) (rules : rulemap T) : Prop :=
  forall dbg, exists g t, grammar_new dbg start rules eof = Val g /\ makes LALR dbg g t /\
  forall q qs xs, stack_path t (q :: qs) xs -> forall A i u v x, item_look t q A i u v x <-> lalr1_look rules start eof (rev xs) A i u v x.

(** ** The textbook's machine: what the stack's symbols and the next one call for *)
Inductive wish : Type := TShift | TReduce (A : T) (i : nat) | TAccept.

(** SLR(1) completes [A -> u] on the symbols of FOLLOW(A), LR(1) on those that can come next here, LALR(1) on
    those that can come next after some prefix with the same items *)
Definition completes (k : method) (rules : rulemap T) (start eof : T) (pre : list T) (A : T) (i : nat) (u : list T) (x : T) : Prop :=
  match k with
  | SLR => valid_after rules start pre A i u [] /\ follow_rules rules start eof A x
  | CLR => valid_look rules start eof pre A i u [] x
  | LALR => lalr1_look rules start eof pre A i u [] x
  end.

Inductive calls_for (k : method) (rules : rulemap T) (start eof : T) (pre : list T) (x : T) : wish -> Prop :=
| calls_shift B j u v : valid_after rules start pre B j u (x :: v) -> calls_for k rules start eof pre x TShift
| calls_reduce A i u : A <> start -> completes k rules start eof pre A i u x -> calls_for k rules start eof pre x (TReduce A i)
| calls_accept i u : completes k rules start eof pre start i u x -> calls_for k rules start eof pre x TAccept.

(** what doing it means for a driver, /repo/src/dfa.rs:72-142 *)
Definition does {M} (rules : rulemap T) (maps : reductmap T M) (s : wish) (d d' : dfa T M) (o : outcome T) : Prop :=
  match s with
  | TShift =>
      match d_buffer d with
      | tok :: rest => o = Ok /\ d_buffer d' = rest /\ d_items d' = tok :: d_items d /\ d_finished d' = false
      | [] => o = Err UnexpectedEof
      end
  | TReduce A i => o = Ok /\ d_buffer d' = d_buffer d /\ d_finished d' = false /\
      exists rhs fs f, prod_at rules A i rhs /\ bm_get A maps = Some fs /\ nth_error fs i = Some f /\
        d_items d' = mkTok (f (rev (firstn (length rhs) (d_items d)))) A :: skipn (length rhs) (d_items d)
  | TAccept => d_finished d' = true /\ d_items d' = d_items d /\ o = match d_buffer d with [] => Ok | _ => Err IncompleteExec end
  end.
End ValidSpec.

(** ** Grammars that differ in rules the start symbol does not reach (C122) *)
Section Reach.
Context {T : Type} {OT : Ord T}.

(** the symbols that occur in what [start] derives have the same rules in both *)
Definition same_from (start : T) (r1 r2 : rulemap T) : Prop :=
  forall u A v, derives r1 [start] (u ++ A :: v) -> (nonterm r1 A <-> nonterm r2 A) /\ forall i rhs, prod_at r1 A i rhs <-> prod_at r2 A i rhs.

(** the same result, but for the actions in conflict *)
Definition same_error (e e' : error T) : Prop :=
  match e, e' with
  | ConflictErr _ _, ConflictErr _ _ => True
  | _, _ => e = e'
  end.
Definition same_outcome {M} (r r' : presult T M) : Prop :=
  match r, r' with POk m, POk m' => m = m' | PErr e, PErr e' => same_error e e' | _, _ => False end.
End Reach.
