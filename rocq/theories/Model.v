(** Executable model of the [lrp] crate (/repo/src), function by function.

    Conventions.
    - [T] is the symbol type, any type with a lawful Rust [Ord].
    - A Rust panic is the explicit value [Panic why].  [dbg = true] models a
      build with [debug_assertions] (debug_assert!, overflow checks),
      [dbg = false] a release build.
    - A loop whose termination is not syntactically evident takes fuel and
      answers [Fuel] when it is exhausted; "the code returns v" is
      "for some fuel the model answers [Val v]", "the code diverges" is
      "for every fuel the model answers [Fuel]".
    - [Rc<Production<T>>] is the production itself (only [clone] and structural
      comparison are used on it).
    - [usize] is [nat] (no computation here can overflow upwards); the
      subtractions that can underflow are explicit panics. *)
From Coq Require Import List Bool Arith.
From Verif Require Import BTree.
Import ListNotations.

(** ** Results *)
Inductive panic :=
| P_assert        (* assert! *)
| P_debug_assert  (* debug_assert! / debug_assert_eq! *)
| P_index         (* [] on a missing map key or out-of-range vector index *)
| P_expect        (* Option::expect / unwrap on None *)
| P_unlisted      (* explicit panic! in first_step *)
| P_underflow.    (* usize subtraction below zero: overflow panic in debug, out-of-range slice/index in release *)

Inductive res (A : Type) :=
| Val (a : A)
| Panic (p : panic)
| Fuel.
Arguments Val {A} a.
Arguments Panic {A} p.
Arguments Fuel {A}.

Definition bind {A B} (r : res A) (f : A -> res B) : res B :=
  match r with Val a => f a | Panic p => Panic p | Fuel => Fuel end.

Notation "'do' x <- r ; k" := (bind r (fun x => k)) (at level 200, x binder, r at level 100, k at level 200).

(** a [for] loop threading a mutable value *)
Fixpoint foldM {A B} (f : B -> A -> res B) (l : list A) (b : B) : res B :=
  match l with
  | [] => Val b
  | x :: l' => do b' <- f b x; foldM f l' b'
  end.

(** [iter().map(..).collect()] whose closure may panic *)
Fixpoint mapM {A B} (f : A -> res B) (l : list A) : res (list B) :=
  match l with
  | [] => Val []
  | x :: l' => do y <- f x; do ys <- mapM f l'; Val (y :: ys)
  end.

Definition expect {A} (p : panic) (o : option A) : res A :=
  match o with Some a => Val a | None => Panic p end.

Definition dassert (dbg : bool) (c : bool) : res unit :=
  if dbg && negb c then Panic P_debug_assert else Val tt.

(** [enumerate] *)
Fixpoint enum_from {A} (i : nat) (l : list A) : list (A * nat) :=
  match l with [] => [] | x :: l' => (x, i) :: enum_from (S i) l' end.

Fixpoint filter_map {A B} (f : A -> option B) (l : list A) : list B :=
  match l with
  | [] => []
  | x :: l' => match f x with Some y => y :: filter_map f l' | None => filter_map f l' end
  end.

(** vector element assignment [v[i] = x] *)
Fixpoint set_nth {A} (i : nat) (x : A) (l : list A) : list A :=
  match l, i with
  | [], _ => []
  | _ :: l', 0 => x :: l'
  | y :: l', S i' => y :: set_nth i' x l'
  end.

(** [transitive], /repo/src/lib.rs:47-60.  The mapped function may itself panic
    or loop. *)
Fixpoint transitive {A} `{Ord A} (fuel : nat) (seed : A) (f : A -> res A) : res A :=
  match fuel with
  | 0 => Fuel
  | S fuel' => do new <- f seed; if eqb new seed then Val seed else transitive fuel' new f
  end.

Section Lrp.
Context {T : Type} {OT : Ord T}.

(** ** src/grammar.rs *)

(** [Production], /repo/src/grammar.rs:6: right-hand side and index in its rule *)
Definition production : Type := (list T * nat)%type.

(** [Rule], /repo/src/grammar.rs:9-16 *)
Record rule := mkRule { r_name : T; r_prods : list production }.

(** [Rule::new], /repo/src/grammar.rs:23-35 *)
Definition rule_new (name : T) (prods : list (list T)) : rule :=
  mkRule name (enum_from 0 prods).

(** [RuleMap], /repo/src/grammar.rs:7 *)
Definition rulemap := bmap T rule.

(** The value of the [grammar_map!] macro, /repo/src/lib.rs:151-171:
    successive [insert]s of [Rule::new(name, prods)] under key [name]. *)
Definition grammar_map (l : list (T * list (list T))) : rulemap :=
  fold_left (fun m e => bm_insert (fst e) (rule_new (fst e) (snd e)) m) l [].

(** [Position], /repo/src/pos.rs:8-17 *)
Record position := mkPos { p_rule : T; p_seq : production; p_point : nat; p_look : bset T }.

Definition pos_tuple (p : position) := (p_rule p, (p_seq p, (p_point p, p_look p))).
Lemma pos_tuple_inj a b : pos_tuple a = pos_tuple b -> a = b.
Proof. destruct a, b. unfold pos_tuple. simpl. congruence. Qed.
(** [#[derive(Ord)]] on [Position]: lexicographic in declaration order of fields *)
#[global] Instance Ord_pos : Ord position := Ord_inj pos_tuple pos_tuple_inj.

(** [Position::peek], /repo/src/pos.rs:47-49 *)
Definition peek (p : position) (qty : nat) : option T := nth_error (fst (p_seq p)) (p_point p + qty).
(** [Position::next], /repo/src/pos.rs:42-44 *)
Definition pnext (p : position) : option T := peek p 1.
(** [Position::top], /repo/src/pos.rs:54-56 *)
Definition ptop (p : position) : option T := peek p 0.
(** [Position::finished], /repo/src/pos.rs:59-61 *)
Definition finished (p : position) : bool := length (fst (p_seq p)) <=? p_point p.
(** [Position::body_eq], /repo/src/pos.rs:64-66 *)
Definition body_eq (a b : position) : bool :=
  Nat.eqb (p_point a) (p_point b) && eqb (p_seq a) (p_seq b) && eqb (p_rule a) (p_rule b).
(** [Position::adv], /repo/src/pos.rs:68-70 *)
Definition adv (p : position) : position := mkPos (p_rule p) (p_seq p) (S (p_point p)) (p_look p).
(** [Position::no_look], /repo/src/pos.rs:78-80 *)
Definition no_look (p : position) : position := mkPos (p_rule p) (p_seq p) (p_point p) [].
(** [Position::clone_next], /repo/src/pos.rs:83-91 *)
Definition clone_next (p : position) : option position :=
  if finished p then None else Some (adv p).

(** [State], /repo/src/lib.rs:27 *)
Definition state := bset position.

(** [Grammar], /repo/src/grammar.rs:47-56 *)
Record grammar := mkGrammar {
  g_rules : rulemap;
  g_terminals : bset T;
  g_symbols : bset T;
  g_basis : position
}.

(** [Grammar::new], /repo/src/grammar.rs:63-86 *)
Definition grammar_new (dbg : bool) (start : T) (rules : rulemap) (eof : T) : res grammar :=
  let terminals0 :=
    fold_left (fun ts r =>
      fold_left (fun ts rc =>
        fold_left (fun ts term => if negb (bm_mem term rules) then bs_insert term ts else ts)
          (fst rc) ts)
        (r_prods r) ts)
      (bm_values rules) [] in
  let terminals := bs_insert eof terminals0 in
  let symbols := bs_of_list (bm_keys rules ++ terminals) in
  do r <- expect P_index (bm_get start rules);
  do _ <- dassert dbg (Nat.eqb (length (r_prods r)) 1);
  do p0 <- expect P_index (nth_error (r_prods r) 0);
  Val (mkGrammar rules terminals symbols (mkPos start p0 0 [eof])).

(** [Grammar::is_terminal], /repo/src/grammar.rs:94-96 *)
Definition is_terminal (g : grammar) (t : T) : bool := negb (bm_mem t (g_rules g)).

(** ** src/tabler.rs *)

(** [Action], /repo/src/dfa.rs:5-12 *)
Inductive action :=
| Shift (n : nat)
| Goto (n : nat)
| Reduce (name : T) (prod : production)
| Acc
| Conflict (a b : action).

Definition act_tag (a : action) : nat :=
  match a with Shift _ => 0 | Goto _ => 1 | Reduce _ _ => 2 | Acc => 3 | Conflict _ _ => 4 end.

(** [#[derive(PartialEq, Ord)]] on [Action]: variants in declaration order, then fields *)
Fixpoint cmp_action (a b : action) : comparison :=
  match a, b with
  | Shift n, Shift m => cmp n m
  | Goto n, Goto m => cmp n m
  | Reduce x p, Reduce y q => lexc (cmp x y) (cmp p q)
  | Acc, Acc => Eq
  | Conflict a1 b1, Conflict a2 b2 => lexc (cmp_action a1 a2) (cmp_action b1 b2)
  | _, _ => Nat.compare (act_tag a) (act_tag b)
  end.

Lemma cmp_action_eq a b : cmp_action a b = Eq <-> a = b.
Proof.
  revert b. induction a as [n|n|x p| |a1 IH1 a2 IH2]; intros [m|m|y q| |b1 b2];
    cbn -[cmp]; try (split; [discriminate|discriminate]).
  - rewrite cmp_eq. split; congruence.
  - rewrite cmp_eq. split; congruence.
  - destruct (cmp x y) eqn:E; cbn [lexc].
    + apply cmp_eq in E. subst. rewrite cmp_eq. split; congruence.
    + split; [discriminate|]. intros [= -> ->]. rewrite cmp_refl in E. discriminate.
    + split; [discriminate|]. intros [= -> ->]. rewrite cmp_refl in E. discriminate.
  - tauto.
  - destruct (cmp_action a1 b1) eqn:E; cbn [lexc].
    + apply IH1 in E. subst. rewrite IH2. split; congruence.
    + split; [discriminate|]. intros [= -> ->].
      assert (cmp_action b1 b1 = Eq) by now apply IH1. congruence.
    + split; [discriminate|]. intros [= -> ->].
      assert (cmp_action b1 b1 = Eq) by now apply IH1. congruence.
Qed.

Lemma cmp_action_opp a b : cmp_action b a = CompOpp (cmp_action a b).
Proof.
  revert b. induction a as [n|n|x p| |a1 IH1 a2 IH2]; intros [m|m|y q| |b1 b2];
    cbn -[cmp]; try reflexivity.
  - apply cmp_opp.
  - apply cmp_opp.
  - rewrite (cmp_opp x y), (cmp_opp p q). destruct (cmp x y); reflexivity.
  - rewrite IH1, IH2. destruct (cmp_action a1 b1); reflexivity.
Qed.

Lemma cmp_action_trans a b c : cmp_action a b = Lt -> cmp_action b c = Lt -> cmp_action a c = Lt.
Proof.
  revert b c. induction a as [n|n|x p| |a1 IH1 a2 IH2]; intros [m|m|y q| |b1 b2] [k|k|z r| |c1 c2];
    cbn -[cmp]; try (intros; congruence).
  - apply cmp_trans.
  - apply cmp_trans.
  - destruct (cmp x y) eqn:E1; cbn [lexc]; try discriminate;
    destruct (cmp y z) eqn:E2; cbn [lexc]; try discriminate.
    + apply cmp_eq in E1, E2. subst. rewrite cmp_refl. apply cmp_trans.
    + apply cmp_eq in E1. subst. now rewrite E2.
    + apply cmp_eq in E2. subst. now rewrite E1.
    + now rewrite (cmp_trans _ _ _ E1 E2).
  - destruct (cmp_action a1 b1) eqn:E1; cbn [lexc]; try discriminate;
    destruct (cmp_action b1 c1) eqn:E2; cbn [lexc]; try discriminate.
    + apply cmp_action_eq in E1, E2. subst.
      assert (cmp_action c1 c1 = Eq) as -> by now apply cmp_action_eq. apply IH2.
    + apply cmp_action_eq in E1. subst. now rewrite E2.
    + apply cmp_action_eq in E2. subst. now rewrite E1.
    + now rewrite (IH1 _ _ E1 E2).
Qed.

#[global] Instance Ord_action : Ord action :=
  {| cmp := cmp_action; cmp_eq := cmp_action_eq; cmp_opp := cmp_action_opp; cmp_trans := cmp_action_trans |}.

(** [Table], /repo/src/lib.rs:39, and [ActTable], /repo/src/lib.rs:24 *)
Definition table := bmap T (bset T).
Definition acttable := list (bmap T action).

(** [Tabler], /repo/src/tabler.rs:4-15 *)
Record tabler := mkTabler {
  t_grammar : grammar;
  t_first : table;
  t_follow : table;
  t_actions : acttable;
  t_states : list state;
  t_kernels : bmap state nat
}.

(** [Tabler::gen_first], /repo/src/tabler.rs:42-63 *)
Definition gen_first (g : grammar) : res table :=
  foldM (fun tbl r =>
    do firsts <-
      foldM (fun (acc : bset T) (rc : production) =>
        match fst rc with
        | [] => Panic P_assert
        | x :: _ => Val (if eqb x (r_name r) then acc else bs_insert x acc)
        end) (r_prods r) [];
    Val (bm_insert (r_name r) firsts tbl))
    (bm_values (g_rules g)) [].

(** [table.entry(k).or_default()] followed by a set update *)
Definition entry_upd (k : T) (f : bset T -> bset T) (tbl : table) : table :=
  bm_insert k (f (match bm_get k tbl with Some s => s | None => [] end)) tbl.

(** the inner [for term_idx in 0..prod.len() - 1] of [gen_follow],
    /repo/src/tabler.rs:76-88, over the suffix of the production not yet visited *)
Fixpoint follow_pairs (g : grammar) (first : table) (prod : list T) (tbl : table) : res table :=
  match prod with
  | x :: ((y :: _) as rest) =>
      do tbl' <-
        (if negb (is_terminal g x) then
           if is_terminal g y then Val (entry_upd x (bs_insert y) tbl)
           else do fs <- expect P_index (bm_get y first); Val (entry_upd x (fun s => bs_extend s fs) tbl)
         else Val tbl);
      follow_pairs g first rest tbl'
  | _ => Val tbl
  end.

(** [Tabler::gen_follow], /repo/src/tabler.rs:69-101.  [prod.len() - 1] on an
    empty production underflows. *)
Definition gen_follow (g : grammar) (first : table) : res table :=
  foldM (fun tbl r =>
    foldM (fun tbl (rc : production) =>
      match fst rc with
      | [] => Panic P_underflow
      | x :: rest =>
          do tbl' <- follow_pairs g first (fst rc) tbl;
          let lst := last rest x in
          Val (if negb (is_terminal g lst) && negb (eqb lst (r_name r))
               then entry_upd lst (bs_insert (r_name r)) tbl' else tbl')
      end) (r_prods r) tbl)
    (bm_values (g_rules g)) [(p_rule (g_basis g), p_look (g_basis g))].

(** [Tabler::first_step], /repo/src/tabler.rs:126-149 *)
Definition first_step (g : grammar) (input : table) : res table :=
  foldM (fun tbl (e : T * bset T) =>
    let (name, firsts) := e in
    do set <-
      foldM (fun (acc : bset T) first =>
        if is_terminal g first then Val (bs_insert first acc)
        else do s <- expect P_unlisted (bm_get first input); Val (bs_extend acc s))
        firsts [];
    Val (bm_insert name (if bs_mem name set then bs_remove name set else set) tbl))
    input [].

(** [Tabler::follow_step], /repo/src/tabler.rs:154-171 *)
Definition follow_step (g : grammar) (input : table) : table :=
  fold_left (fun tbl (e : T * bset T) =>
    let (noterm, terms) := e in
    let set :=
      fold_left (fun (acc : bset T) term =>
        if is_terminal g term then bs_insert term acc
        else match bm_get term input with Some s => bs_extend acc s | None => acc end)
        terms [] in
    bm_insert noterm (if bs_mem noterm set then bs_remove noterm set else set) tbl)
    input [].

Definition all_terminal (g : grammar) (tbl : table) : bool :=
  forallb (fun e => forallb (is_terminal g) (snd e)) tbl.

(** [Tabler::proc_first], /repo/src/tabler.rs:103-111 *)
Definition proc_first (dbg : bool) (fuel : nat) (g : grammar) (first : table) : res table :=
  do f <- transitive fuel first (first_step g);
  do _ <- dassert dbg (all_terminal g f);
  Val f.

(** [Tabler::proc_follow], /repo/src/tabler.rs:113-121 *)
Definition proc_follow (dbg : bool) (fuel : nat) (g : grammar) (follow : table) : res table :=
  do f <- transitive fuel follow (fun t => Val (follow_step g t));
  do _ <- dassert dbg (all_terminal g f);
  Val f.

(** [Tabler::new], /repo/src/tabler.rs:22-36 *)
Definition tabler_new (dbg : bool) (fuel : nat) (g : grammar) : res tabler :=
  do first0 <- gen_first g;
  do first <- proc_first dbg fuel g first0;
  do follow0 <- gen_follow g first;
  do follow <- proc_follow dbg fuel g follow0;
  Val (mkTabler g first follow [] [] []).

(** [Tabler::first_of], /repo/src/tabler.rs:179-189 *)
Definition first_of (first : table) (items : bset T) : bset T :=
  fold_left (fun firsts item =>
    match bm_get item first with
    | Some f => bs_extend firsts f
    | None => bs_insert item firsts
    end) items [].

(** [Tabler::sym_filter], /repo/src/tabler.rs:194-205 *)
Definition sym_filter (s : state) (sym : T) : state :=
  bs_of_list (filter_map (fun p =>
    match ptop p with
    | Some x => if eqb x sym then clone_next p else None
    | None => None
    end) s).

(** [Tabler::conflicts], /repo/src/tabler.rs:207-212 *)
Definition is_conflict (a : action) : bool := match a with Conflict _ _ => true | _ => false end.
Definition conflicts (acts : acttable) : list action :=
  filter is_conflict (flat_map bm_values acts).

(** [Tabler::update_entry], /repo/src/tabler.rs:225-237 *)
Fixpoint update_entry (travel : bmap nat nat) (entry : action) : res action :=
  match entry with
  | Acc => Val Acc
  | Reduce n p => Val (Reduce n p)
  | Goto n => do m <- expect P_index (bm_get n travel); Val (Goto m)
  | Shift n => do m <- expect P_index (bm_get n travel); Val (Shift m)
  | Conflict a b =>
      do a' <- update_entry travel a;
      do b' <- update_entry travel b;
      Val (Conflict a' b')
  end.

(** the loop of [Tabler::reduced_actions], /repo/src/tabler.rs:247-253 *)
Definition reduced_step (st : bmap (bmap T action) nat * bmap nat nat * acttable)
    (e : bmap T action * nat) : res (bmap (bmap T action) nat * bmap nat nat * acttable) :=
  let '(actions_map, travel, actions) := st in
  let '(old_action, i) := e in
  let '(actions_map, actions) :=
    if negb (bm_mem old_action actions_map)
    then (bm_insert old_action (length actions) actions_map, actions ++ [old_action])
    else (actions_map, actions) in
  do j <- expect P_index (bm_get old_action actions_map);
  Val (actions_map, bm_insert i j travel, actions).

(** [Tabler::reduced_actions], /repo/src/tabler.rs:243-256 *)
Definition reduced_actions (dbg : bool) (acts : acttable) (nstates : nat) : res (bmap nat nat * acttable) :=
  do st <- foldM reduced_step (enum_from 0 acts) ([], [], []);
  let '(_, travel, actions) := st in
  do _ <- dassert dbg (length actions <=? nstates);
  Val (travel, actions).

(** [Tabler::reduce_equals], /repo/src/tabler.rs:214-222 (and [Parser::reduce_equals],
    /repo/src/parser.rs:137-139) *)
Definition reduce_equals (dbg : bool) (t : tabler) : res tabler :=
  do r <- reduced_actions dbg (t_actions t) (length (t_states t));
  let '(travel, new_actions) := r in
  do acts <- mapM (fun row => mapM (fun e => do a <- update_entry travel (snd e); Val (fst e, a)) row) new_actions;
  Val (mkTabler (t_grammar t) (t_first t) (t_follow t) acts (t_states t) (t_kernels t)).

(** ** src/slr.rs, src/clr.rs *)

(** the body of the closure loops: insert [top -> . prod] with lookahead [look]
    for each production of [top] *)
Definition insert_prods (top : T) (look : bset T) (prods : list production) (s : state) : state :=
  fold_left (fun s prod => bs_insert (mkPos top prod 0 look) s) prods s.

(** [Slr::closure], /repo/src/slr.rs:46-60 *)
Definition slr_closure (g : grammar) (s : state) : res state :=
  do new_state <-
    foldM (fun new_state pos =>
      match ptop pos with
      | None => Val new_state
      | Some top =>
          if is_terminal g top then Val new_state
          else do r <- expect P_index (bm_get top (g_rules g));
               Val (insert_prods top [] (r_prods r) new_state)
      end) s [];
  Val (bs_extend new_state s).

(** [Clr::closure], /repo/src/clr.rs:69-88, and [Lalr::closure],
    /repo/src/lalr.rs:97-115 (the same text) *)
Definition clr_closure (g : grammar) (first : table) (s : state) : res state :=
  do new_state <-
    foldM (fun new_state pos =>
      match ptop pos with
      | None => Val new_state
      | Some top =>
          if is_terminal g top then Val new_state
          else
            let look := match pnext pos with
                        | None => p_look pos
                        | Some locus => first_of first [locus]
                        end in
            do r <- expect P_index (bm_get top (g_rules g));
            Val (insert_prods top look (r_prods r) new_state)
      end) s [];
  Val (bs_extend new_state s).

(** [prop_closure], /repo/src/slr.rs:151-153, clr.rs:164-166, lalr.rs:70-72 *)
Definition prop_closure (closure : state -> res state) (fuel : nat) (seed : state) : res state :=
  transitive fuel seed closure.

(** [goto], /repo/src/slr.rs:116-127, clr.rs:107-118, lalr.rs:221-232 *)
Definition goto_kernel (closure : state -> res state) (fuel : nat) (ks : bmap state nat)
    (row : state) (sym : T) : res (option (state * state)) :=
  let kernel := sym_filter row sym in
  if bm_mem kernel ks then Val None
  else
    do new <- prop_closure closure fuel kernel;
    match new with
    | [] => Val None
    | _ => Val (Some (kernel, new))
    end.

(** the inner [for s in symbols] loop of [proc_closures], /repo/src/slr.rs:67-75
    and clr.rs:94-101.  (Clr re-reads [states[idx]] at each symbol; that element
    never changes, so the row is passed once, as Slr does.) *)
Definition proc_syms (dbg : bool) (closure : state -> res state) (fuel : nat) (syms : list T)
    (row : state) (ks_sts : bmap state nat * list state) : res (bmap state nat * list state) :=
  foldM (fun '(ks, sts) s =>
    do o <- goto_kernel closure fuel ks row s;
    match o with
    | None => Val (ks, sts)
    | Some (kernel, closures) =>
        do _ <- dassert dbg (negb (bm_mem kernel ks));
        Val (bm_insert kernel (length sts) ks, sts ++ [closures])
    end) syms ks_sts.

(** the [while idx < states.len()] loop of [proc_closures], /repo/src/slr.rs:62-78
    and clr.rs:90-104 *)
Fixpoint proc_rows (dbg : bool) (closure : state -> res state) (cfuel : nat) (syms : list T)
    (fuel : nat) (idx : nat) (ks_sts : bmap state nat * list state) : res (bmap state nat * list state) :=
  match fuel with
  | 0 => Fuel
  | S fuel' =>
      match nth_error (snd ks_sts) idx with
      | None => Val ks_sts
      | Some row =>
          do ks_sts' <- proc_syms dbg closure cfuel syms row ks_sts;
          proc_rows dbg closure cfuel syms fuel' (S idx) ks_sts'
      end
  end.

(** [proc_closures] with [proc_closures_first_row], /repo/src/slr.rs:39-43,62-78
    and clr.rs:41-45,90-104 *)
Definition proc_closures (dbg : bool) (closure : state -> res state) (fuel : nat) (g : grammar)
  : res (bmap state nat * list state) :=
  do start <- prop_closure closure fuel [g_basis g];
  proc_rows dbg closure fuel (g_symbols g) fuel 0 ([([], 0)], [start]).

(** [decision], /repo/src/slr.rs:84-113, clr.rs:124-158, lalr.rs:235-264.
    [lookf] is the lookahead set consulted for a finished position
    ([pos.look] in Clr and Lalr, [follow[&pos.rule]] in Slr); [sfk] is
    [Parser::state_from_kernel]. *)
Definition decision (g : grammar) (lookf : position -> res (bset T)) (sfk : state -> option nat)
    (start : T) (pos : position) (row : state) : res (bmap T action) :=
  match ptop pos with
  | None =>
      do look <- lookf pos;
      Val (bm_of_list (map (fun l =>
        (l, if eqb (p_rule pos) start then Acc else Reduce (p_rule pos) (p_seq pos))) look))
  | Some locus =>
      do st <- expect P_expect (sfk (sym_filter row locus));
      Val [(locus, if is_terminal g locus then Shift st else Goto st)]
  end.

(** one iteration of the innermost loop of [proc_actions], /repo/src/slr.rs:138-143 *)
Definition add_action (m : bmap T action) (e : T * action) : bmap T action :=
  let (term, act) := e in
  match bm_get term m with
  | Some old => if eqb old act then bm_insert term act m else bm_insert term (Conflict old act) m
  | None => bm_insert term act m
  end.

(** one row of [proc_actions], /repo/src/slr.rs:135-146 *)
Definition row_actions (g : grammar) (lookf : position -> res (bset T)) (sfk : state -> option nat)
    (start : T) (row : state) : res (bmap T action) :=
  foldM (fun m item => do d <- decision g lookf sfk start item row; Val (fold_left add_action d m)) row [].

(** the loop of [proc_actions], /repo/src/slr.rs:131-148, clr.rs:49-66, lalr.rs:74-94 *)
Definition proc_actions (g : grammar) (lookf : position -> res (bset T)) (sfk : state -> option nat)
    (states : list state) : res acttable :=
  mapM (row_actions g lookf sfk (p_rule (g_basis g))) states.

(** [Parser::state_from_kernel] with the default [final_kernel],
    /repo/src/parser.rs:98-106 *)
Definition sfk_plain (ks : bmap state nat) (kernel : state) : option nat := bm_get kernel ks.

(** [self.table.follow[&pos.rule]], /repo/src/slr.rs:87 *)
Definition slr_look (follow : table) (pos : position) : res (bset T) :=
  expect P_index (bm_get (p_rule pos) follow).

(** [pos.look], /repo/src/clr.rs:132 *)
Definition clr_look (pos : position) : res (bset T) := Val (p_look pos).

(** [Slr::with_table], /repo/src/slr.rs:16-20 (the table comes fresh from [Tabler::new]) *)
Definition slr_with_table (dbg : bool) (fuel : nat) (t : tabler) : res tabler :=
  let g := t_grammar t in
  do '(ks, sts) <- proc_closures dbg (slr_closure g) fuel g;
  do acts <- proc_actions g (slr_look (t_follow t)) (sfk_plain ks) sts;
  Val (mkTabler g (t_first t) (t_follow t) acts sts ks).

(** [Clr::with_table], /repo/src/clr.rs:16-20 *)
Definition clr_with_table (dbg : bool) (fuel : nat) (t : tabler) : res tabler :=
  let g := t_grammar t in
  do '(ks, sts) <- proc_closures dbg (clr_closure g (t_first t)) fuel g;
  do acts <- proc_actions g clr_look (sfk_plain ks) sts;
  Val (mkTabler g (t_first t) (t_follow t) acts sts ks).

(** [Parser::new], /repo/src/parser.rs:12-17, for Slr and Clr *)
Definition slr_new (dbg : bool) (fuel : nat) (g : grammar) : res tabler :=
  do t <- tabler_new dbg fuel g; slr_with_table dbg fuel t.
Definition clr_new (dbg : bool) (fuel : nat) (g : grammar) : res tabler :=
  do t <- tabler_new dbg fuel g; clr_with_table dbg fuel t.

(** ** src/lalr.rs *)

(** inner [for key in keys] of [Parser::merged], /repo/src/parser.rs:116-125 *)
Fixpoint merge_into (keys : list position) (new : state) (st : position) : state :=
  match keys with
  | [] => bs_insert st new
  | key :: keys' =>
      if body_eq key st then
        bs_insert (mkPos (p_rule st) (p_seq st) (p_point st) (bs_extend (p_look st) (p_look key)))
          (bs_remove key new)
      else merge_into keys' new st
  end.

(** [Parser::merged], /repo/src/parser.rs:113-129 *)
Definition merged (states : state) : state :=
  fold_left (fun new st => merge_into new new st) states [].

(** [Lalr::without_look], /repo/src/lalr.rs:65-67 *)
Definition without_look (s : state) : state := bs_of_list (map no_look s).

(** [Lalr] (the mutable part), /repo/src/lalr.rs:5-13 *)
Record lalr := mkLalr {
  l_kernels : bmap state nat;
  l_states : list state;
  l_raws : bmap state state
}.

(** [Lalr::update_state], /repo/src/lalr.rs:185-218 *)
Definition update_state (dbg : bool) (p : lalr) (main inc closures : state) : res (lalr * option state) :=
  match bm_get main (l_kernels p) with
  | None => Val (p, None)
  | Some state_id =>
      let new_kernel := merged (bs_of_list (inc ++ main)) in
      if eqb new_kernel main then Val (p, None)
      else
        do old_state <- expect P_index (nth_error (l_states p) state_id);
        let both_closures := bs_of_list (old_state ++ closures) in
        let kernels1 := bm_remove main (l_kernels p) in
        do _ <- dassert dbg (negb (bm_mem new_kernel kernels1));
        Val (mkLalr (bm_insert new_kernel state_id kernels1)
                    (set_nth state_id (merged both_closures) (l_states p))
                    (bm_insert (without_look new_kernel) new_kernel (l_raws p)),
             Some new_kernel)
  end.

(** [Lalr::update_closures], /repo/src/lalr.rs:150-182; [regen] is its ['regen] loop
    and [go] the [for s in &syms] inside it. *)
Fixpoint update_closures (dbg : bool) (closure : state -> res state) (cfuel : nat) (syms : list T)
    (fuel : nat) (p : lalr) (main inc closures : state) {struct fuel} : res (lalr * option state) :=
  match fuel with
  | 0 => Fuel
  | S fuel' =>
      do '(p1, o) <- update_state dbg p main inc closures;
      match o with
      | None => Val (p1, None)
      | Some new_kernel =>
          do id <- expect P_index (bm_get new_kernel (l_kernels p1));
          do '(p2, nk) <- regen dbg closure cfuel syms fuel' p1 id new_kernel;
          Val (p2, Some nk)
      end
  end
with regen (dbg : bool) (closure : state -> res state) (cfuel : nat) (syms : list T)
    (fuel : nat) (p : lalr) (id : nat) (new_kernel : state) {struct fuel} : res (lalr * state) :=
  match fuel with
  | 0 => Fuel
  | S fuel' =>
      (fix go (ss : list T) (p : lalr) {struct ss} : res (lalr * state) :=
        match ss with
        | [] => Val (p, new_kernel)
        | s :: ss' =>
            do o <- goto_kernel closure cfuel (l_kernels p) new_kernel s;
            match o with
            | None => go ss' p
            | Some (kernel, closures) =>
                match bm_get (without_look kernel) (l_raws p) with
                | None => go ss' p
                | Some main_kernel =>
                    do '(p', o') <- update_closures dbg closure cfuel syms fuel' p main_kernel kernel closures;
                    match o' with
                    | None => go ss' p'
                    | Some nk =>
                        do updated_state <- expect P_index (bm_get nk (l_kernels p'));
                        if Nat.eqb updated_state id && negb (eqb nk new_kernel)
                        then regen dbg closure cfuel syms fuel' p' id nk
                        else go ss' p'
                    end
                end
            end
        end) syms p
  end.

(** the [for s in &syms] of [Lalr::proc_closures], /repo/src/lalr.rs:123-144.
    The boolean answer says whether [continue 'gen] was taken. *)
Fixpoint lalr_syms (dbg : bool) (closure : state -> res state) (fuel : nat) (syms : list T)
    (idx : nat) (row : state) (ss : list T) (p : lalr) : res (lalr * bool) :=
  match ss with
  | [] => Val (p, false)
  | s :: ss' =>
      do o <- goto_kernel closure fuel (l_kernels p) row s;
      match o with
      | None => lalr_syms dbg closure fuel syms idx row ss' p
      | Some (kernel, closures) =>
          let raw_kernel := without_look kernel in
          match bm_get raw_kernel (l_raws p) with
          | Some main_kernel =>
              do '(p', o') <- update_closures dbg closure fuel syms fuel p main_kernel kernel closures;
              match o' with
              | None => lalr_syms dbg closure fuel syms idx row ss' p'
              | Some nk =>
                  do j <- expect P_index (bm_get nk (l_kernels p'));
                  if Nat.eqb j idx && negb (eqb nk row) then Val (p', true)
                  else lalr_syms dbg closure fuel syms idx row ss' p'
              end
          | None =>
              do _ <- dassert dbg (negb (bm_mem kernel (l_kernels p)));
              lalr_syms dbg closure fuel syms idx row ss'
                (mkLalr (bm_insert kernel (length (l_states p)) (l_kernels p))
                        (l_states p ++ [closures])
                        (bm_insert raw_kernel kernel (l_raws p)))
          end
      end
  end.

(** the ['gen: while idx < states.len()] loop, /repo/src/lalr.rs:121-146 *)
Fixpoint lalr_rows (dbg : bool) (closure : state -> res state) (cfuel : nat) (syms : list T)
    (fuel : nat) (idx : nat) (p : lalr) : res lalr :=
  match fuel with
  | 0 => Fuel
  | S fuel' =>
      match nth_error (l_states p) idx with
      | None => Val p
      | Some row =>
          do '(p', again) <- lalr_syms dbg closure cfuel syms idx row syms p;
          lalr_rows dbg closure cfuel syms fuel' (if again then idx else S idx) p'
      end
  end.

(** [Lalr::proc_closures] with [proc_closures_first_row], /repo/src/lalr.rs:57-62,117-147 *)
Definition lalr_closures (dbg : bool) (closure : state -> res state) (fuel : nat) (g : grammar) : res lalr :=
  do start <- prop_closure closure fuel [g_basis g];
  lalr_rows dbg closure fuel (g_symbols g) fuel 0 (mkLalr [([], 0)] [start] [([], start)]).

(** [state_from_kernel] with [Lalr::final_kernel], /repo/src/parser.rs:98-101 and lalr.rs:47-50 *)
Definition sfk_lalr (p : lalr) (kernel : state) : option nat :=
  match bm_get (without_look kernel) (l_raws p) with
  | Some fk => bm_get fk (l_kernels p)
  | None => None
  end.

(** [Lalr::with_table], /repo/src/lalr.rs:26-30 *)
Definition lalr_with_table (dbg : bool) (fuel : nat) (t : tabler) : res (tabler * lalr) :=
  let g := t_grammar t in
  do p <- lalr_closures dbg (clr_closure g (t_first t)) fuel g;
  do acts <- proc_actions g clr_look (sfk_lalr p) (l_states p);
  Val (mkTabler g (t_first t) (t_follow t) acts (l_states p) (l_kernels p), p).

(** [Lalr::new], /repo/src/lalr.rs:19-24 *)
Definition lalr_new (dbg : bool) (fuel : nat) (g : grammar) : res (tabler * lalr) :=
  do t <- tabler_new dbg fuel g; lalr_with_table dbg fuel t.

(** ** src/dfa.rs *)

(** [Error], /repo/src/dfa.rs:14-34 *)
Inductive error :=
| UnexpectedToken (found : T) (expected : list T)
| UnexpectedEof
| ConflictErr (a b : action)
| MissingPreviousState
| StateNotSpecified
| IncompleteExec.

(** [Result<(), Error>] *)
Inductive outcome := Ok | Err (e : error).

Section Dfa.
Context {M : Type}.

(** [Token], /repo/src/lib.rs:83-87 *)
Record token := mkTok { tk_item : M; tk_ty : T }.

(** [ReductFn], [ReductMap], /repo/src/dfa.rs:62-63.  Reductors are modelled as
    total pure functions (they are [fn] pointers in the code). *)
Definition reductfn := list token -> M.
Definition reductmap := bmap T (list reductfn).

(** [Dfa], /repo/src/dfa.rs:65-79.  The vectors [states] and [items] are kept top
    (= last element) first.  [buffer] is the list of tokens the iterator will
    still produce. *)
Record dfa := mkDfa {
  d_buffer : list token;
  d_states : list nat;
  d_items : list token;
  d_table : acttable;
  d_top : nat;
  d_finished : bool;
  d_reductors : reductmap;
  d_eof : T
}.

(** [Dfa::new], /repo/src/dfa.rs:93-104 *)
Definition dfa_new (buffer : list token) (tbl : acttable) (reductors : reductmap) (eof : T) : dfa :=
  mkDfa buffer [0] [] tbl 0 false reductors eof.

(** [Dfa::transparent], /repo/src/dfa.rs:107-116 *)
Definition transparent (g : grammar) (f : reductfn) : reductmap :=
  bm_of_list (map (fun r => (r_name r, map (fun _ => f) (r_prods r))) (bm_values (g_rules g))).

(** [Dfa::shift], /repo/src/dfa.rs:120-126 *)
Definition dfa_shift (d : dfa) (to : nat) : dfa * outcome :=
  match d_buffer d with
  | [] => (d, Err UnexpectedEof)
  | item :: rest =>
      (mkDfa rest (to :: d_states d) (item :: d_items d) (d_table d) to (d_finished d)
             (d_reductors d) (d_eof d), Ok)
  end.

(** [Dfa::accept], /repo/src/dfa.rs:130-137 *)
Definition dfa_accept (d : dfa) : dfa * outcome :=
  (mkDfa (d_buffer d) (d_states d) (d_items d) (d_table d) (d_top d) true (d_reductors d) (d_eof d),
   match d_buffer d with [] => Ok | _ => Err IncompleteExec end).

(** [Dfa::goto], /repo/src/dfa.rs:162-166 *)
Definition dfa_goto (d : dfa) (to : nat) : dfa * outcome :=
  (mkDfa (d_buffer d) (to :: d_states d) (d_items d) (d_table d) to (d_finished d) (d_reductors d) (d_eof d), Ok).

(** The part of [Dfa::reduce] before its final [travel], /repo/src/dfa.rs:190-210.
    (The debug_asserts on missing reductors panic exactly when the indexing
    after them would.) *)
Definition dfa_pop (d : dfa) (name : T) (prod : production) : res dfa :=
  let k := length (fst prod) in
  if length (d_items d) <? k then Panic P_underflow
  else
    do fs <- expect P_index (bm_get name (d_reductors d));
    do f <- expect P_index (nth_error fs (snd prod));
    let new_item := mkTok (f (rev (firstn k (d_items d)))) name in
    do top <- expect P_underflow (nth_error (d_states d) k);
    Val (mkDfa (d_buffer d) (skipn k (d_states d)) (new_item :: skipn k (d_items d)) (d_table d) top
               (d_finished d) (d_reductors d) (d_eof d)).

(** [Dfa::travel] with [Dfa::reduce], /repo/src/dfa.rs:172-212 *)
Fixpoint travel (fuel : nat) (d : dfa) (symbol : T) : res (dfa * outcome) :=
  match fuel with
  | 0 => Fuel
  | S fuel' =>
      match nth_error (d_table d) (d_top d) with
      | None => Val (d, Err StateNotSpecified)
      | Some st =>
          match bm_get symbol st with
          | None => Val (d, Err (UnexpectedToken symbol (bm_keys st)))
          | Some (Shift to) => Val (dfa_shift d to)
          | Some (Goto to) => Val (dfa_goto d to)
          | Some (Reduce name prod) => do d' <- dfa_pop d name prod; travel fuel' d' name
          | Some Acc => Val (dfa_accept d)
          | Some (Conflict a b) => Val (d, Err (ConflictErr a b))
          end
      end
  end.

(** the lookahead of [Dfa::trace], /repo/src/dfa.rs:150-154 *)
Definition lookahead (d : dfa) : T :=
  match d_buffer d with [] => d_eof d | t :: _ => tk_ty t end.

(** [Dfa::start] = [Dfa::trace] with the trivial observer, /repo/src/dfa.rs:141-158.
    The final [dfa] is also returned, since callers read its fields. *)
Fixpoint dfa_start (fuel : nat) (d : dfa) : res (dfa * outcome) :=
  match fuel with
  | 0 => Fuel
  | S fuel' =>
      if d_finished d then Val (d, Ok)
      else
        do '(d', o) <- travel fuel' d (lookahead d);
        match o with
        | Ok => dfa_start fuel' d'
        | Err e => Val (d', Err e)
        end
  end.

(** [Dfa::reset], /repo/src/dfa.rs:214-219 *)
Definition dfa_reset (d : dfa) : dfa :=
  mkDfa (d_buffer d) [] [] (d_table d) 0 false (d_reductors d) (d_eof d).

Inductive presult := POk (m : M) | PErr (e : error).

(** [Dfa::parse], /repo/src/dfa.rs:223-230 *)
Definition dfa_parse (fuel : nat) (d : dfa) (input : list token) : res (dfa * presult) :=
  let d1 := dfa_reset d in
  let d2 := mkDfa input (d_states d1) (d_items d1) (d_table d1) (d_top d1) (d_finished d1)
                  (d_reductors d1) (d_eof d1) in
  do '(d3, o) <- dfa_start fuel d2;
  match o with
  | Err e => Val (d3, PErr e)
  | Ok =>
      match d_items d3 with
      | [] => Val (d3, PErr MissingPreviousState)
      | it :: _ => Val (dfa_reset d3, POk (tk_item it))
      end
  end.

(** [Parser::dfa], /repo/src/parser.rs:26-47 *)
Definition parser_dfa (t : tabler) (buffer : list token) (maps : reductmap) : res dfa :=
  do eof <- expect P_index (nth_error (firstn 1 (p_look (g_basis (t_grammar t)))) 0);
  Val (dfa_new buffer (t_actions t) maps eof).

(** [Parser::parse], /repo/src/parser.rs:73-88 *)
Definition parser_parse (fuel : nat) (t : tabler) (buffer : list token) (maps : reductmap) : res presult :=
  do d <- parser_dfa t buffer maps;
  do '(d', o) <- dfa_start fuel d;
  match o with
  | Err e => Val (PErr e)
  | Ok => match d_items d' with
          | [] => Val (PErr MissingPreviousState)
          | it :: _ => Val (POk (tk_item it))
          end
  end.

End Dfa.

(** [to_tokens], /repo/src/lib.rs:101-103 *)
Definition to_tokens (l : list T) : list (@token unit) := map (mkTok tt) l.

(** [Parser::empty], /repo/src/parser.rs:66-69 *)
Definition empty_map (g : grammar) : @reductmap unit := transparent g (fun _ => tt).

(** [Parser::cloned], /repo/src/parser.rs:58-63: [toks[0].ty.clone()].  The
    indexing cannot fail on the nonempty productions the tables accept; the
    model answers [dflt] there. *)
Definition cloned_map (g : grammar) (dflt : T) : @reductmap T :=
  transparent g (fun toks => match toks with t :: _ => tk_ty t | [] => dflt end).

(** [Parser::validate], /repo/src/parser.rs:92-94 *)
Definition validate (fuel : nat) (t : tabler) (buffer : list (@token unit)) : res bool :=
  do r <- parser_parse fuel t buffer (empty_map (t_grammar t));
  Val (match r with POk _ => true | PErr _ => false end).

End Lrp.

Arguments token : clear implicits.
Arguments dfa : clear implicits.
Arguments reductmap : clear implicits.
Arguments grammar : clear implicits.
Arguments rulemap : clear implicits.
Arguments rule : clear implicits.
Arguments position : clear implicits.
Arguments state : clear implicits.
Arguments tabler : clear implicits.
Arguments production : clear implicits.
Arguments action : clear implicits.
Arguments acttable : clear implicits.
Arguments table : clear implicits.
Arguments lalr : clear implicits.
Arguments error : clear implicits.
Arguments outcome : clear implicits.
Arguments presult : clear implicits.
Arguments reductfn : clear implicits.
