(** The texts made by [{}] and [{:?}], /repo/src/dfa.rs and pos.rs, and the cells of the tables printed by
    the [lrp] binary, /repo/src/main.rs.

    Simplifications.
    - [{:?}] of a symbol is a parameter [show], [{}] of a symbol a parameter [disp].  For the binary's [&str]
      they are [str_debug] below and the identity.
    - The texts of the derived [Debug] implementations, of vectors, sets, pairs and numbers are those of the
      standard library (without the [#] flag, which is nowhere used); [Rc] and [Box] print what they hold.
    - A row of a table is the list of its cells; the layout by [prettytable] is not modelled. *)
From Coq Require Import List Bool Arith Ascii String DecimalString.
From Verif Require Import BTree Model Show Trace.
Import ListNotations.
Local Open Scope string_scope.
Local Open Scope list_scope.
Local Open Scope nat_scope.

(** [{}] and [{:?}] of [usize] *)
Definition decimal (n : nat) : string := NilZero.string_of_uint (Nat.to_uint n).

(** what [{:?}] of a [Vec] or [Set] puts around and between its elements *)
Definition listing (open close : string) (l : list string) : string := (open ++ String.concat ", " l ++ close)%string.

(** one character of [{:?}] of a [str].  (Bytes beyond ASCII are printed as they are; the standard library
    escapes some of those characters too.) *)
Definition hex (n : nat) : ascii := match n with 0 => "0" | 1 => "1" | 2 => "2" | 3 => "3" | 4 => "4" | 5 => "5" | 6 => "6" | 7 => "7"
  | 8 => "8" | 9 => "9" | 10 => "a" | 11 => "b" | 12 => "c" | 13 => "d" | 14 => "e" | _ => "f" end%char.
Definition escape (c : ascii) : string :=
  let n := nat_of_ascii c in
  if n =? 0 then "\0" else if n =? 9 then "\t" else if n =? 10 then "\n" else if n =? 13 then "\r"
  else if n =? 34 then "\""" else if n =? 92 then "\\"
  else if (n <? 16) then ("\u{" ++ String (hex n) "}")%string
  else if (n <? 32) || (n =? 127) then ("\u{" ++ String (hex (n / 16)) (String (hex (n mod 16)) "}"))%string
  else String c "".
(** [{:?}] of a [str] *)
Definition str_debug (s : string) : string := ("""" ++ String.concat "" (map escape (list_ascii_of_string s)) ++ """")%string.

Section Text.
Context {T : Type} {OT : Ord T}.
Variables show disp : T -> string.
Local Notation "a ^^ b" := (String.append a b) (at level 60, right associativity).

(** [{:?}] of a vector and of a set of symbols *)
Definition vec_text (l : list T) : string := listing "[" "]" (map show l).
Definition set_text (l : bset T) : string := listing "{" "}" (map show l).
(** [{:?}] of a [Production], a pair, /repo/src/grammar.rs:6 *)
Definition prod_text (p : production T) : string := "(" ^^ vec_text (fst p) ^^ ", " ^^ decimal (snd p) ^^ ")".

(** [Debug] of [Action], derived at /repo/src/dfa.rs:5 *)
Fixpoint action_text (a : action T) : string :=
  match a with
  | Shift n => "Shift(" ^^ decimal n ^^ ")"
  | Goto n => "Goto(" ^^ decimal n ^^ ")"
  | Reduce name prod => "Reduce(" ^^ show name ^^ ", " ^^ prod_text prod ^^ ")"
  | Acc => "Acc"
  | Conflict a b => "Conflict(" ^^ action_text a ^^ ", " ^^ action_text b ^^ ")"
  end.

(** [Display] of [Error], /repo/src/dfa.rs:36-58 *)
Definition error_text (e : error T) : string :=
  match e with
  | UnexpectedToken found expected => "unexpected token " ^^ show found ^^ ". expected " ^^ vec_text expected
  | UnexpectedEof => "unexpected eof"
  | ConflictErr a b => "conflicting action " ^^ action_text a ^^ " and " ^^ action_text b
  | MissingPreviousState => "missing previous state. impossible to continue dfa execution"
  | StateNotSpecified => "state not specified in actions table"
  | IncompleteExec => "finished the parsing without consume entire buffer"
  end.

(** one turn of the loop of [Display] of [Position], /repo/src/pos.rs:100-108; [abs_idx] is :73-75 *)
Definition pos_cell (p : position T) (i : nat) : string :=
  " " ^^ (if i =? p_point p then ". " else "") ^^ match nth_error (fst (p_seq p)) i with Some x => show x | None => "" end.
(** [Display] of [Position], /repo/src/pos.rs:94-111, and its [Debug], :113-120 *)
Definition pos_text (p : position T) : string :=
  show (p_rule p) ^^ " =" ^^ String.concat "" (map (pos_cell p) (seq 0 (S (Nat.max (p_point p) (List.length (fst (p_seq p)))))))
  ^^ " " ^^ set_text (p_look p).
(** [{:?}] of a [State] *)
Definition state_text (s : state T) : string := listing "{" "}" (map pos_text s).

(** [Dfa::stack_fmt], /repo/src/dfa.rs:232-248, as the string it returns *)
Definition stack_text (l : list (nat + T)) : string :=
  String.concat " " (map (fun e => match e with inl q => decimal q | inr x => show x end) l).
(** [Dfa::stack_debug], /repo/src/dfa.rs:251-270; [showM] is [{:?}] of a value, [Debug] of [Token] is derived
    at /repo/src/lib.rs:83 *)
Definition stack_debug {M} (showM : M -> string) (d : dfa T M) : string :=
  String.concat " " (map (fun e => match e with
      | inl q => decimal q
      | inr tok => "Token { item: " ^^ showM (tk_item tok) ^^ ", ty: " ^^ show (tk_ty tok) ^^ " }"
      end) (weave (rev (d_states d)) (rev (d_items d)))).

(** ** the tables of the binary *)
(** rows of [print_tokens_table], /repo/src/main.rs:72-76 *)
Definition tokens_text (t : tabler T) : list (list string) :=
  map (fun '(k, first, follow) => [disp k; set_text first; set_text follow]) (tokens_table t).
(** rows of [print_states_table], /repo/src/main.rs:92-114 *)
Definition states_text (o : option (lalr T)) (t : tabler T) : res (list (list string)) :=
  do start <- expect P_index (nth_error (t_states t) 0);
  do rows <- states_table o t;
  Val (["last state: " ^^ decimal (List.length (t_states t) - 1); pos_text (g_basis (t_grammar t)); "0"; state_text start] ::
       map (fun '(i, sym, kernel, id, c) => ["goto(" ^^ decimal i ^^ ", " ^^ disp sym ^^ ")"; state_text kernel; decimal id; state_text c]) rows).
(** one cell of [print_actions_table], /repo/src/main.rs:150-153 and 158-161 *)
Definition action_cell (a : option (action T)) : string := match a with Some a => action_text a | None => "" end.
(** titles and rows of [print_actions_table], /repo/src/main.rs:138-164 *)
Definition actions_text (t : tabler T) : list string * list (list string) :=
  let '(ts, nts) := actions_columns t in
  (map show (ts ++ nts),
   map (fun '(l, i, l') => map action_cell l ++ [decimal i] ++ map action_cell l') (actions_table t)).
(** one row of [print_proc_dfa], /repo/src/main.rs:181-203 *)
Definition proc_text (r : proc_row T) : list string :=
  [decimal (r_step r); stack_text (r_stack r); vec_text (r_buffer r);
   decimal (fst (r_address r)) ^^ ":" ^^ show (snd (r_address r));
   match r_action r with Some a => action_text a | None => "n/a" end].
(** its last row, :205-208 *)
Definition outcome_text (o : outcome T) : list string := ["state"; match o with Ok => "ok" | Err e => error_text e end].
(** all rows of [print_proc_dfa] *)
Definition run_text (rows : list (proc_row T)) (o : outcome T) : list (list string) := map proc_text rows ++ [outcome_text o].
End Text.
