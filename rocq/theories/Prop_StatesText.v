(** C129: what the printed states table, tokens table and stack tell *)
From Coq Require Import List Bool Arith String.
From Verif Require Import BTree Model Show Strings Spec SpecP Interface Check Examples Refute Refute2 Text TextSpec TextP TextEx StatesText StatesTextEx.
Import ListNotations.
Local Open Scope string_scope.
Local Open Scope list_scope.
Local Notation length := List.length.
Local Notation "a ^^ b" := (String.append a b) (at level 60, right associativity).

(** ** C129 *)
(** The first row gives the number of the last state and state 0; the others are named apart and give exactly the moves of the
    table, the kernel (the positions of the state with the dot moved) and the state moved to; every state is shown. *)
Theorem C129_rows : forall (T : Type) (OT : Ord T) (dbg : bool) (start eof : T) (rules : rulemap T) (g : grammar T),
  wf_rules rules -> grammar_new dbg start rules eof = Val g -> forall show disp : T -> string, (forall x y, disp x = disp y -> x = y) ->
  forall k t o, builds k dbg g t o -> exists s0 rows,
  nth_error (t_states t) 0 = Some s0 /\
  states_text show disp o t = Val (["last state: " ^^ decimal (length (t_states t) - 1); pos_text show (g_basis g); "0"; state_text show s0] :: rows) /\
  NoDup (map (hd "") rows) /\
  (forall q x n, (exists kern c, In ["goto(" ^^ decimal q ^^ ", " ^^ disp x ^^ ")"; kern; decimal n; c] rows) <-> moves t q x n) /\
  (forall r, In r rows -> exists q x n row row' fk, r = ["goto(" ^^ decimal q ^^ ", " ^^ disp x ^^ ")"; state_text show fk; decimal n; state_text show row'] /\
     nth_error (t_states t) q = Some row /\ nth_error (t_states t) n = Some row' /\
     forall A pr p, (exists l, In (mkPos A pr p l) fk) <-> exists p' l, p = S p' /\ In (mkPos A pr p' l) row /\ nth_error (fst pr) p' = Some x) /\
  (forall n row, n <> 0 -> nth_error (t_states t) n = Some row -> exists a kern, In [a; kern; decimal n; state_text show row] rows).
Proof. exact @states_text_rows. Qed.
Print Assumptions C129_rows.

(** The text tells the number of states and the moves, and the states themselves if no alternative is written twice (C103). *)
Theorem C129_back : forall (T : Type) (OT : Ord T) (dbg : bool) (start eof : T) (rules : rulemap T) (g : grammar T),
  wf_rules rules -> grammar_new dbg start rules eof = Val g -> forall show disp : T -> string, (forall x y, disp x = disp y -> x = y) -> legible show ->
  forall k k' t t' o o' rows, builds k dbg g t o -> builds k' dbg g t' o' ->
  states_text show disp o t = Val rows -> states_text show disp o' t' = Val rows ->
  length (t_states t) = length (t_states t') /\ (forall q x n, moves t q x n <-> moves t' q x n) /\ (no_twins rules -> t_states t = t_states t').
Proof. exact @states_text_back. Qed.
Print Assumptions C129_back.

Example C129_example : wf_rules calc /\ grammar_new true "Z" calc "$" = Val (calc_g true) /\ legible str_debug /\ no_twins calc /\
  builds SLR true (calc_g true) (calc_tab SLR) None /\
  exists rows, states_text str_debug (fun s => s) None (calc_tab SLR) = Val rows /\ length rows = 15 /\
  map (fun r => (nth 0 r "", nth 2 r "")) (firstn 4 rows) = [("last state: 8", "0"); ("goto(0, ()", "1"); ("goto(0, E)", "2"); ("goto(0, T)", "3")] /\
  nth 1 (nth 2 rows []) "" = "{""E"" = ""E"" . ""+"" ""T""  {}, ""Z"" = ""E"" .  {""$""}}".
Proof. exact (conj calc_wf (conj (calc_gE true) (conj str_legible (conj calc_twins (conj calc_slr_builds calc_states_text))))). Qed.

(** Where every nonterminal but the start symbol is used by another one (C54), the printed tokens table has a row for every
    nonterminal, in order, with its name, its FIRST set and its FOLLOW set; ... *)
Theorem C129_tokens_rows : forall (T : Type) (OT : Ord T) dbg (start eof : T) rules g, wf_rules rules -> grammar_new dbg start rules eof = Val g ->
  forall show disp : T -> string, (forall x y, disp x = disp y -> x = y) -> forall k t, makes k dbg g t ->
  (forall A, nonterm rules A -> A <> start -> exists B i rhs, prod_at rules B i rhs /\ In A rhs /\ A <> B) ->
  map (hd "") (tokens_text show disp t) = map disp (bm_keys rules) /\
  forall r A, In r (tokens_text show disp t) -> hd "" r = disp A -> exists f w, bm_get A (t_first t) = Some f /\ bm_get A (t_follow t) = Some w /\
    r = [disp A; set_text show f; set_text show w].
Proof. exact @tokens_text_rows. Qed.
Print Assumptions C129_tokens_rows.

(** ... in any case the text tells the FIRST and FOLLOW sets that were put into it. *)
Theorem C129_tokens : forall (T : Type) (OT : Ord T) (show disp : T -> string), legible show -> (forall x y, disp x = disp y -> x = y) ->
  forall t t' : tabler T, tokens_text show disp t = tokens_text show disp t' -> tokens_table t = tokens_table t'.
Proof. exact @tokens_text_back. Qed.
Print Assumptions C129_tokens.

Example C129_tokens_example : (forall A, nonterm calc A -> A <> "Z" -> exists B i rhs, prod_at calc B i rhs /\ In A rhs /\ A <> B) /\
  tokens_text str_debug (fun s => s) (calc_tab SLR) =
  [["E"; "{""("", ""n""}"; "{""$"", "")"", ""+""}"]; ["T"; "{""("", ""n""}"; "{""$"", "")"", ""+""}"]; ["Z"; "{""("", ""n""}"; "{""$""}"]].
Proof. exact (conj calc_used calc_tokens_text). Qed.

(** The text of the stack with its values lists states and tokens in turn, the bottom first, ... *)
Theorem C129_stack_text : forall (T M : Type) (show : T -> string) (showM : M -> string) (d : dfa T M) q,
  (d_states d = [q] -> d_items d = [] -> stack_debug show showM d = decimal q) /\
  (forall qs it its d', d_states d = q :: qs -> d_items d = it :: its -> length qs = S (length its) -> d_states d' = qs -> d_items d' = its ->
     stack_debug show showM d = stack_debug show showM d' ^^ " Token { item: " ^^ showM (tk_item it) ^^ ", ty: " ^^ show (tk_ty it) ^^ " } " ^^ decimal q).
Proof. exact @stack_debug_text. Qed.
Print Assumptions C129_stack_text.

(** ... and tells the states, the symbols and the values. *)
Theorem C129_stack : forall (T : Type) (OT : Ord T) (M : Type) (show : T -> string) (showM : M -> string), legible show -> legible showM ->
  forall dbg (start eof : T) rules g, wf_rules rules -> grammar_new dbg start rules eof = Val g -> term rules eof -> forall k t, makes k dbg g t ->
  forall maps input input' (d d' : dfa T M), Forall (term rules) (map tk_ty input) -> Forall (term rules) (map tk_ty input') -> reaches t input maps d -> reaches t input' maps d' ->
  stack_debug show showM d = stack_debug show showM d' -> d_states d = d_states d' /\ d_items d = d_items d'.
Proof. exact @stack_debug_back. Qed.
Print Assumptions C129_stack.

Example C129_stack_example : legible str_debug /\ legible decimal /\ exists d, reaches (calc_tab SLR) calc_input calc_maps d /\ Forall (term calc) (map tk_ty calc_input) /\
  stack_debug str_debug decimal d = "0 Token { item: 1, ty: ""E"" } 2 Token { item: 0, ty: ""+"" } 6".
Proof. exact (conj str_legible (conj decimal_legible calc_stack_text)). Qed.
