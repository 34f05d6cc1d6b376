(** Vocabulary of the property statements that concerns the code's entry points:
    building a parser by one of the three methods and running it. *)
From Coq Require Import List Bool Arith.
From Coq Require Import Relation_Operators.
From Verif Require Import BTree Model Spec.
Import ListNotations.

(** the three implementations of [Parser]: /repo/src/slr.rs, clr.rs, lalr.rs *)
Inductive method := SLR | CLR | LALR.

Section Interface.
Context {T : Type} {OT : Ord T}.

(** [Slr::new(g)], [Clr::new(g)] or [Lalr::new(g)] returns a parser with table [t] *)
Definition makes (k : method) (dbg : bool) (g : grammar T) (t : tabler T) : Prop :=
  match k with
  | SLR => exists fuel, slr_new dbg fuel g = Val t
  | CLR => exists fuel, clr_new dbg fuel g = Val t
  | LALR => exists fuel p, lalr_new dbg fuel g = Val (t, p)
  end.

(** the same with the extra fields of an [Lalr] value ([None] for [Slr] and [Clr]) *)
Definition builds (k : method) (dbg : bool) (g : grammar T) (t : tabler T) (o : option (lalr T)) : Prop :=
  match k with
  | SLR => o = None /\ exists fuel, slr_new dbg fuel g = Val t
  | CLR => o = None /\ exists fuel, clr_new dbg fuel g = Val t
  | LALR => exists fuel p, o = Some p /\ lalr_new dbg fuel g = Val (t, p)
  end.

(** [Tabler::new(g)] returns [t] *)
Definition tabler_makes (dbg : bool) (g : grammar T) (t : tabler T) : Prop := exists fuel, tabler_new dbg fuel g = Val t.

(** [Slr::with_table(t)], [Clr::with_table(t)] or [Lalr::with_table(t)] *)
Definition with_table (k : method) (dbg : bool) (fuel : nat) (t : tabler T) : res (tabler T) :=
  match k with
  | SLR => slr_with_table dbg fuel t
  | CLR => clr_with_table dbg fuel t
  | LALR => do '(t', _) <- lalr_with_table dbg fuel t; Val t'
  end.

(** FIRST and FOLLOW hold only terminals *)
Definition only_terminals (t : tabler T) : Prop :=
  forall A s x, bm_get A (t_first t) = Some s \/ bm_get A (t_follow t) = Some s -> In x s -> term (g_rules (t_grammar t)) x.

(** the symbol after the dot *)
Definition at_dot (pos : position T) : option T := nth_error (fst (p_seq pos)) (p_point pos).

(** [go q x] is the number of the state reached from state [q] on [x]: it holds the
    positions of state [q] with [x] after the dot, advanced (Lalr: up to lookaheads),
    and no other position with the dot past the beginning *)
Definition transitions (k : method) (t : tabler T) (go : nat -> T -> nat) : Prop :=
  forall q row x, nth_error (t_states t) q = Some row -> (exists pos, In pos row /\ at_dot pos = Some x) ->
  exists row', nth_error (t_states t) (go q x) = Some row' /\
    (forall pos, In pos row -> at_dot pos = Some x -> exists pos', In pos' row' /\
       p_rule pos' = p_rule pos /\ p_seq pos' = p_seq pos /\ p_point pos' = S (p_point pos) /\ (k <> LALR -> p_look pos' = p_look pos)) /\
    (forall pos', In pos' row' -> 0 < p_point pos' -> exists pos, In pos row /\ at_dot pos = Some x /\
       p_rule pos' = p_rule pos /\ p_seq pos' = p_seq pos /\ p_point pos' = S (p_point pos)).

(** the finished position [pos] calls for its reduction on [x] *)
Definition allows (k : method) (t : tabler T) (pos : position T) (x : T) : Prop :=
  match k with
  | SLR => exists s, bm_get (p_rule pos) (t_follow t) = Some s /\ In x s
  | _ => In x (p_look pos)
  end.

(** some position of state [q] calls for the action on symbol [x] *)
Inductive decides (k : method) (t : tabler T) (go : nat -> T -> nat) (q : nat) : T -> action T -> Prop :=
| decides_shift row pos x : nth_error (t_states t) q = Some row -> In pos row -> at_dot pos = Some x ->
    term (g_rules (t_grammar t)) x -> decides k t go q x (Shift (go q x))
| decides_goto row pos x : nth_error (t_states t) q = Some row -> In pos row -> at_dot pos = Some x ->
    nonterm (g_rules (t_grammar t)) x -> decides k t go q x (Goto (go q x))
| decides_reduce row pos x : nth_error (t_states t) q = Some row -> In pos row -> at_dot pos = None ->
    allows k t pos x -> p_rule pos <> p_rule (g_basis (t_grammar t)) -> decides k t go q x (Reduce (p_rule pos) (p_seq pos))
| decides_accept row pos x : nth_error (t_states t) q = Some row -> In pos row -> at_dot pos = None ->
    allows k t pos x -> p_rule pos = p_rule (g_basis (t_grammar t)) -> decides k t go q x Acc.

(** the plain actions inside an entry *)
Fixpoint inside (b a : action T) : Prop :=
  match a with
  | Conflict a1 a2 => inside b a1 \/ inside b a2
  | _ => b = a
  end.

(** the entry of state [q] at symbol [x] contains a move to state [n] *)
Definition moves (t : tabler T) (q : nat) (x : T) (n : nat) : Prop :=
  exists row a, nth_error (t_actions t) q = Some row /\ bm_get x row = Some a /\ (inside (Shift n) a \/ inside (Goto n) a).

(** a stack of states (top first) and the symbols between them: it starts at state 0 and
    every symbol is a move of the table *)
Inductive stack_path (t : tabler T) : list nat -> list T -> Prop :=
| stack_bottom : stack_path t [0] []
| stack_push q qs x xs n : stack_path t (q :: qs) xs -> moves t q x n -> stack_path t (n :: q :: qs) (x :: xs).

(** moving the dot over [x] keeps all lookaheads.  [Slr::new] and [Clr::new] always
    achieve what this is needed for; [Lalr::new] does not guarantee it (see C15). *)
Definition carries (t : tabler T) : Prop :=
  forall q x n row row' pos, moves t q x n -> nth_error (t_states t) q = Some row -> nth_error (t_states t) n = Some row' ->
  In pos row -> at_dot pos = Some x ->
  exists pos', In pos' row' /\ p_rule pos' = p_rule pos /\ p_seq pos' = p_seq pos /\ p_point pos' = S (p_point pos) /\
    incl (p_look pos) (p_look pos').

(** the lookahead a closure step gives to the productions of the symbol after the dot of [p] *)
Definition closure_look (k : method) (t : tabler T) (p : position T) (l : bset T) : Prop :=
  match k with
  | SLR => l = []
  | _ =>
      match nth_error (fst (p_seq p)) (S (p_point p)) with
      | None => l = p_look p
      | Some X => sorted l /\ forall x, In x l <-> (term (g_rules (t_grammar t)) X /\ x = X) \/ exists s, bm_get X (t_first t) = Some s /\ In x s
      end
  end.

(** the closure of a set of positions *)
Inductive closure_of (k : method) (t : tabler T) (seed : position T -> Prop) : position T -> Prop :=
| co_seed p : seed p -> closure_of k t seed p
| co_step p B pr l : closure_of k t seed p -> at_dot p = Some B -> prod_at (g_rules (t_grammar t)) B (snd pr) (fst pr) ->
    closure_look k t p l -> closure_of k t seed (mkPos B pr 0 l).

(** the code's closure function for each method *)
Definition closure_fn (k : method) (t : tabler T) : state T -> res (state T) :=
  match k with SLR => slr_closure (t_grammar t) | _ => clr_closure (t_grammar t) (t_first t) end.

(** a position of the grammar *)
Definition valid_pos (g : grammar T) (p : position T) : Prop :=
  prod_at (g_rules g) (p_rule p) (snd (p_seq p)) (fst (p_seq p)) /\ p_point p <= length (fst (p_seq p)) /\
  sorted (p_look p) /\ forall x, In x (p_look p) -> In x (g_symbols g).

(** [start] has a single production *)
Definition single_start (rules : rulemap T) (start : T) : Prop := forall i rhs, prod_at rules start i rhs -> i = 0.

Section Run.
Context {M : Type}.

(** [parser.parse(input, maps)] returns [r] *)
Definition parses (t : tabler T) (input : list (token T M)) (maps : reductmap T M) (r : presult T M) : Prop :=
  exists fuel, parser_parse fuel t input maps = Val r.

(** one round of the loop of [Dfa::start], /repo/src/dfa.rs:149-157, that does not return *)
Definition round (d d' : dfa T M) : Prop :=
  d_finished d = false /\ exists fuel, travel fuel d (lookahead d) = Val (d', Ok).

(** the driver, started on [input], is in configuration [d] at the head of its loop *)
Inductive reaches (t : tabler T) (input : list (token T M)) (maps : reductmap T M) : dfa T M -> Prop :=
| reaches_start d : parser_dfa t input maps = Val d -> reaches t input maps d
| reaches_round d d' : reaches t input maps d -> round d d' -> reaches t input maps d'.

(** the driver is about to reduce all the items of its stack at once *)
Definition empties (t : tabler T) (d : dfa T M) : Prop :=
  d_finished d = false /\ exists row A pr, nth_error (t_actions t) (d_top d) = Some row /\
    bm_get (lookahead d) row = Some (Reduce A pr) /\ length (fst pr) = length (d_items d).

(** [start] returns the error [e], with [rest] not yet consumed *)
Definition fails (t : tabler T) (input : list (token T M)) (maps : reductmap T M) (rest : list (token T M)) (e : error T) : Prop :=
  exists d d' fuel, parser_dfa t input maps = Val d /\ dfa_start fuel d = Val (d', Err e) /\ d_buffer d' = rest.
End Run.

(** [parser.validate(input)] returns [b] *)
Definition validates (t : tabler T) (input : list (token T unit)) (b : bool) : Prop :=
  exists fuel, validate fuel t input = Val b.

(** no chain of unit productions leads from a nonterminal back to itself *)
Inductive unit_chain (rules : rulemap T) : T -> T -> Prop :=
| uc_one A i B : prod_at rules A i [B] -> nonterm rules B -> unit_chain rules A B
| uc_more A i B C : prod_at rules A i [B] -> nonterm rules B -> unit_chain rules B C -> unit_chain rules A C.
Definition no_unit_cycle (rules : rulemap T) : Prop := forall A, ~ unit_chain rules A A.

(** [B] can begin (end) a right-hand side of [A] *)
Definition left_corner (rules : rulemap T) (A B : T) : Prop := exists i v, prod_at rules A i (B :: v) /\ nonterm rules B /\ A <> B.
Definition right_corner (rules : rulemap T) (A B : T) : Prop := exists i u, prod_at rules A i (u ++ [B]) /\ nonterm rules B /\ A <> B.
(** no nonterminal begins (ends) itself through other nonterminals *)
Definition no_left_cycle (rules : rulemap T) : Prop := forall A, ~ clos_trans _ (left_corner rules) A A.
Definition no_right_cycle (rules : rulemap T) : Prop := forall A, ~ clos_trans _ (right_corner rules) A A.
End Interface.
