(** C77-C80: the Rust code [wop] writes *)
From Coq Require Import List Bool Arith Ascii String Permutation.
From Verif Require Import BTree Model Strings Spec Wop WopSpec WopFront WopExport WopLex WopText WopRun WopEx WopEx2 RustSpec RustP RustRun RustFile RustEx.
Import ListNotations.
Local Open Scope string_scope.
Local Open Scope list_scope.
Local Open Scope nat_scope.

(** ** C77: the names bound *)
(** In every production the names of the alternative are bound, and nothing else. *)
Theorem C77_names : forall text order, iterates order -> forall dbg ts alt r bs c, emits text order dbg ts alt r bs c ->
  forall n, In n (map bd_name bs) <-> In n (pipe_names text (fst alt)).
Proof. exact (fun text order Ho dbg ts alt r bs c He => proj2 (proj2 (proj2 (proj2 (emits_right text order dbg Ho ts alt r bs c He))))). Qed.
Print Assumptions C77_names.
Example C77_example : forall dbg, emits (slice ok_src) keep dbg (toks ok_src) ok_alt ok_run ok_bs " { f(l, r, g, x) }" /\
  map bd_name ok_bs = ["l"; "g"; "r"; "x"] /\ pipe_names (slice ok_src) (fst ok_alt) = ["l"; "g"; "r"; "r"; "x"].
Proof. intros dbg. split; [apply ok_emits|split; vm_compute; reflexivity]. Qed.

(** ** C78: the statements as Rust *)
(** Their text, read and executed with the tokens in [toks], binds the names of the alternative to the tokens expected, not
    mutably, and nothing else; for patterns as in C34 and C66, whose names can be bound. *)
Theorem C78_statements : forall text order, iterates order -> forall dbg ts alt r bs c,
  emits text order dbg ts alt r bs c -> good text (fst alt) -> forallb solid (fst alt) = true -> fst r <> [] ->
  (forall n, In n (pipe_names text (fst alt)) -> is_name n = true /\ n <> "toks") ->
  forall A (toks : list A), List.length toks = List.length (fst r) ->
  exists env, run_text (String.concat "" (map binding_text bs)) toks = Val env /\
    (forall n, In n (pipe_names text (fst alt)) -> exists v, find_var n env = Some (false, as_value v) /\ expected text (fst alt) toks (snd r) n = Val v) /\
    (forall n, ~ In n (pipe_names text (fst alt)) -> find_var n env = if String.eqb n "toks" then Some (false, VList toks) else None).
Proof. exact emits_text. Qed.
Print Assumptions C78_statements.
Example C78_example : forall dbg, emits (slice ok_src) keep dbg (toks ok_src) ok_alt ok_run ok_bs " { f(l, r, g, x) }" /\ good (slice ok_src) (fst ok_alt) /\ forallb solid (fst ok_alt) = true /\ List.length (fst ok_run) = 5 /\
  forallb (fun n => is_name n && negb (String.eqb n "toks")) (pipe_names (slice ok_src) (fst ok_alt)) = true /\
  run_text (String.concat "" (map binding_text ok_bs)) [10; 11; 12; 13; 14] =
    Val [("x", (false, VSome (VTok 14))); ("r", (false, VSome (VTok 13))); ("g", (false, VList [12; 13])); ("l", (false, VTok 10)); ("toks", (false, VList [10; 11; 12; 13; 14]))].
Proof. intros dbg. split; [apply ok_emits|]. split; [apply ok_good|]. repeat split; vm_compute; reflexivity. Qed.

(** ** C79: the text of the reductors *)
(** [es] is the emitted grammar and [rules] the order the rules are written in.  Read as a Rust block, whatever follows, the text
    consists of the reductors of the productions of the grammar. *)
Theorem C79_reductors : forall text order, iterates order -> forall dbg ts ds b es rules entry s,
  reads text order dbg ts (Val (inl b)) -> file_toks ts ds -> clean_file text ds -> free curly entry = true ->
  Permutation es (dump_grammar text b) -> Permutation rules (b_rules b) -> dump_reductor_text text entry b rules = Val s -> forall rest,
  exists items, read_code (s ++ rest) = Some (items, ("map" ++ nl)%string, rest) /\ reductors_for text ds entry (grammar_map es) items.
Proof. exact reductor_items. Qed.
Print Assumptions C79_reductors.
Example C79_example : forall dbg, reads (slice ok_src) keep dbg (toks ok_src) (Val (inl (built_from dbg ok_src))) /\ file_toks (toks ok_src) (decls_of ok_src) /\ clean_file (slice ok_src) (decls_of ok_src) /\
  exists s, dump_reductor_text (slice ok_src) "Gramem" (built_from dbg ok_src) (b_rules (built_from dbg ok_src)) = Val s /\
  match read_code s with Some (items, _, _) => inserted "E" items | None => [] end = [["lrp_wop_E_0"; "lrp_wop_E_1"; "lrp_wop_E_2"; "lrp_wop_E_3"; "lrp_wop_E_4"]].
Proof.
  intros dbg. split; [apply fine_facts, each_fine; simpl; tauto|]. split; [apply ok_file|]. split; [apply ok_clean|].
  exists (match dump_reductor_text (slice ok_src) "Gramem" (built_from dbg ok_src) (b_rules (built_from dbg ok_src)) with Val s => s | _ => "" end). split; destruct dbg; vm_compute; reflexivity.
Qed.

(** ** C80: out.rs *)
(** What wop writes for a valid file is, read as Rust, a function returning the grammar and one returning its reductors. *)
Theorem C80_out : forall lg order, iterates order -> forall iter, (forall l, Permutation (iter l) l) -> forall dbg src ds,
  file_toks (tokenize lg src) ds -> valid (slice src) ds -> clean_file (slice src) ds -> plain_file (slice src) ds ->
  exists s, runs_main lg order iter dbg src (Val (Ok, s)) /\ out_of (slice src) ds s.
Proof. exact main_text. Qed.
Print Assumptions C80_out.
Example C80_example : file_toks (toks ok_src) (decls_of ok_src) /\ valid (slice ok_src) (decls_of ok_src) /\ clean_file (slice ok_src) (decls_of ok_src) /\ plain_file (slice ok_src) (decls_of ok_src) /\
  read_body ok_fn = Some (" let l = toks[0].clone();" ++ nl ++ "let g = toks[2..4].to_vec();" ++ nl ++ "let r = Some(toks[3].clone());" ++ nl ++ "let x = Some(toks[4].clone());" ++ nl ++ "  { f(l, r, g, x) }",
    ", lrp::Span::new(toks[0].item.span.start, toks.last().unwrap().item.span.end))" ++ nl ++ String (ascii_of_nat 9) "")%string.
Proof. split; [apply ok_file|]. split; [apply ok_file|]. split; [apply ok_clean|]. split; [apply ok_clean|]. vm_compute. reflexivity. Qed.
