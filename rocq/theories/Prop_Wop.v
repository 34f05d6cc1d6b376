(** C33-C36, C62-C76: [wop], the generator *)
From Coq Require Import List Bool Arith Ascii String Permutation.
From Verif Require Import BTree Model Strings Wop WopSpec WopFront Spec WopP WopExport WopRead WopAlias WopLex WopLexSpec WopLexP WopStr WopText WopTextSpec WopTextP WopMain WopRun WopBoot WopEx WopEx2 WopSum WopExactSpec WopExactT WopExactB WopRef WopExactEx.
Import ListNotations.
Local Open Scope string_scope.
Local Open Scope list_scope.
Local Open Scope nat_scope.

(** ** C33: the productions *)
(** [es] are the rules of the emitted [RuleMap] in any order of insertion.  The productions of a rule are those obtained
    from its alternatives ([expand], whose members are the choices [picks]), symbols replaced by the aliases declared before. *)
Theorem C33_expansion : forall text order, iterates order -> forall dbg ts ds b es,
  reads text order dbg ts (Val (inl b)) -> file_toks ts ds -> Permutation es (dump_grammar text b) ->
  wf_rules (grammar_map es) /\ (forall n, nonterm (grammar_map es) n <-> In n (rule_names text ds)) /\
  forall ds1 name ty alts ds2, ds = ds1 ++ DRule name ty alts :: ds2 ->
    (forall i w, prod_at (grammar_map es) (text name) i w <->
       exists r, nth_error (flat_map (fun alt => expand (fst alt)) alts) i = Some r /\ w = map (fun s => text (resolve text ds1 s)) r) /\
    forall alt r, In alt alts -> (In r (expand (fst alt)) <-> picks (fst alt) r).
Proof. exact sum_expansion. Qed.
Print Assumptions C33_expansion.
Example C33_example : forall dbg, iterates keep /\ reads (slice ok_src) keep dbg (toks ok_src) (Val (inl (built_from dbg ok_src))) /\ file_toks (toks ok_src) (decls_of ok_src) /\
  dump_grammar (slice ok_src) (built_from dbg ok_src) =
    [("E", [["E"; "Plus"; "N"; "X"]; ["E"; "Plus"; "N"]; ["E"; "Plus"; """("""; "L"; "X"]; ["E"; "Plus"; """("""; "L"]; ["N"]])].
Proof. intros dbg. destruct (fine_facts ok_src dbg) as (H1 & _ & H3); [apply each_fine; simpl; tauto|]. split; [exact keep_iterates|]. split; [exact H1|]. split; [exact H3|]. destruct dbg; vm_compute; reflexivity. Qed.

(** ** C34: the aliases *)
(** False: in the production [A B] of [A (C?:x B?)], [x] is bound to [B]. *)
Theorem C34_refuted : forall dbg, exists bs, emits (slice bad_src) keep dbg (toks bad_src) bad_alt ([(7, 8); (15, 16)], []) bs " { x }" /\
  ~ binds_right (slice bad_src) (fst bad_alt) bs ([(7, 8); (15, 16)], []).
Proof. exact bad_emits'. Qed.
Print Assumptions C34_refuted.
(** Also if an alias is called [toks], as in [A:toks B:y]. *)
Theorem C34_toks_refuted : forall dbg, exists alt r bs c, emits (slice hide_src) keep dbg (toks hide_src) alt r bs c /\ good (slice hide_src) (fst alt) /\ List.length (fst r) = 2 /\
  run_all [0; 1] bs = Panic P_unlisted /\
  map binding_text bs = ["let toks = toks[0].clone();" ++ newline; "let y = toks[1].clone();" ++ newline]%string.
Proof. exact hide_emits. Qed.
Print Assumptions C34_toks_refuted.
(** Right for the patterns [good] describes: the statements bind every name of the alternative exactly once, to the tokens
    expected.  Missing: the other patterns. *)
Theorem C34_partial : forall text order, iterates order -> forall dbg ts alt r bs c,
  emits text order dbg ts alt r bs c -> good text (fst alt) -> fst r <> [] -> ~ In "toks" (pipe_names text (fst alt)) ->
  forall A (toks : list A), List.length toks = List.length (fst r) ->
  exists vals, run_all toks bs = Val vals /\ (forall n, In n (map fst vals) -> In n (pipe_names text (fst alt))) /\
    forall n, In n (pipe_names text (fst alt)) -> exists v, filter (fun x => String.eqb (fst x) n) vals = [(n, v)] /\ expected text (fst alt) toks (snd r) n = Val v.
Proof. exact emits_runs. Qed.
Print Assumptions C34_partial.
Example C34_example : forall dbg, emits (slice ok_src) keep dbg (toks ok_src) ok_alt ok_run ok_bs " { f(l, r, g, x) }" /\ good (slice ok_src) (fst ok_alt) /\ List.length (fst ok_run) = 5 /\
  ~ In "toks" (pipe_names (slice ok_src) (fst ok_alt)) /\
  run_all [10; 11; 12; 13; 14] ok_bs = Val [("l", One 10); ("g", Slice [12; 13]); ("r", Present (One 13)); ("x", Present (One 14))].
Proof. intros dbg. split; [apply ok_emits|]. split; [apply ok_good|]. split; [vm_compute; reflexivity|]. split; [vm_compute; intuition discriminate|vm_compute; reflexivity]. Qed.

(** Only for these, among the alternatives whose names all differ and whose productions are not empty: if every production
    of the alternative binds its names to the tokens expected, the alternative is [good]. *)
Theorem C34_exact : forall text order dbg, iterates order -> forall ts alt r0 bs0 c0, emits text order dbg ts alt r0 bs0 c0 ->
  NoDup (pipe_names text (fst alt)) -> ~ In "toks" (pipe_names text (fst alt)) -> never_empty (fst alt) ->
  ((forall r bs c, emits text order dbg ts alt r bs c -> forall A (toks : list A), List.length toks = List.length (fst r) ->
      exists vals, run_all toks bs = Val vals /\ forall n, In n (pipe_names text (fst alt)) -> exists v, filter (fun x => String.eqb (fst x) n) vals = [(n, v)] /\ expected text (fst alt) toks (snd r) n = Val v)
    <-> good text (fst alt)).
Proof. exact good_exact. Qed.
Print Assumptions C34_exact.
Example C34_exact_example : forall dbg,
  (exists r bs, emits (slice neat_src) keep dbg (toks neat_src) neat_alt r bs " { c }" /\ List.length (fst r) = 4 /\ List.length bs = 5) /\
  (NoDup (pipe_names (slice neat_src) (fst neat_alt)) /\ ~ In "toks" (pipe_names (slice neat_src) (fst neat_alt)) /\ never_empty (fst neat_alt)) /\ good (slice neat_src) (fst neat_alt) /\
  (exists bs, emits (slice bad_src) keep dbg (toks bad_src) bad_alt ([(7, 8); (15, 16)], []) bs " { x }") /\
  (NoDup (pipe_names (slice bad_src) (fst bad_alt)) /\ ~ In "toks" (pipe_names (slice bad_src) (fst bad_alt)) /\ never_empty (fst bad_alt)) /\ ~ good (slice bad_src) (fst bad_alt).
Proof.
  intros dbg. split; [apply neat_emits|]. split; [destruct neat_facts as (A & B & C & _); auto|]. split; [exact neat_good|]. split; [destruct (bad_emits' dbg) as (bs & H & _); eauto|]. split; [destruct bad_facts as (A & B & C & _); auto|exact bad_not_good].
Qed.

(** ** C35: reductors and productions *)
Theorem C35_lined_up : forall text order, iterates order -> forall dbg ts ds b es rs rs',
  reads text order dbg ts (Val (inl b)) -> file_toks ts ds -> Permutation es (dump_grammar text b) -> dump_reductor text b = Val rs -> Permutation rs' rs ->
  forall ds1 name ty alts ds2, ds = ds1 ++ DRule name ty alts :: ds2 ->
  exists fs, bm_get (text name) (bm_of_list rs') = Some fs /\
    (forall i, (exists w, prod_at (grammar_map es) (text name) i w) <-> exists f, nth_error fs i = Some f) /\
    forall i alt r, nth_error (flat_map (fun alt => map (pair alt) (runs (fst alt))) alts) i = Some (alt, r) ->
      prod_at (grammar_map es) (text name) i (map (fun s => text (resolve text ds1 s)) (fst r)) /\
      exists bs c, nth_error fs i = Some (bs, c) /\ text (snd alt) = ("->" ++ c ++ "%")%string.
Proof. exact sum_lined_up. Qed.
Print Assumptions C35_lined_up.
Example C35_example : forall dbg, reads (slice ok_src) keep dbg (toks ok_src) (Val (inl (built_from dbg ok_src))) /\ file_toks (toks ok_src) (decls_of ok_src) /\
  dump_reductor (slice ok_src) (built_from dbg ok_src) = Val (reductors_of dbg ok_src) /\
  map (fun e => (fst e, map snd (snd e))) (reductors_of dbg ok_src) =
    [("E", [" { f(l, r, g, x) }"; " { f(l, r, g, x) }"; " { f(l, r, g, x) }"; " { f(l, r, g, x) }"; " { h() }"])].
Proof. intros dbg. destruct (fine_facts ok_src dbg) as (H1 & H2 & H3); [apply each_fine; simpl; tauto|]. split; [exact H1|]. split; [exact H3|]. split; [exact H2|]. destruct dbg; vm_compute; reflexivity. Qed.

(** ** C36: redefinitions *)
(** [valid]: no rule and no alias declared twice, a code block behind every alternative of a rule, none within a group *)
Theorem C36_recorded : forall text order, iterates order -> forall dbg ts ds, file_toks ts ds ->
  (valid text ds -> exists b, reads text order dbg ts (Val (inl b)) /\ records text b ds) /\ (~ valid text ds -> reads text order dbg ts (Panic P_assert)).
Proof. exact sum_records. Qed.
Print Assumptions C36_recorded.
Example C36_example : (exists ds, file_toks (toks twice_src) ds /\ rule_names (slice twice_src) ds = ["S"; "S"]) /\ reads (slice twice_src) keep true (toks twice_src) (Panic P_assert).
Proof.
  split; [|apply (reads_run _ _ _ 400); [vm_compute; reflexivity|discriminate]]. exists (decls_of twice_src). split; [|vm_compute; reflexivity].
  apply (read_file_sound 400). vm_compute. reflexivity.
Qed.
(** Names are compared as texts: one path spelled in two ways is two rules to wop. *)
Theorem C36_spelling_refuted : forall dbg, reads (slice space_src) keep dbg (toks space_src) (Val (inl (built_from dbg space_src))) /\
  map (fun e => (fst e, snd e)) (dump_grammar (slice space_src) (built_from dbg space_src)) = [("a :: S", [["A"]]); ("a::S", [["B"]])].
Proof. exact space_rules. Qed.
Print Assumptions C36_spelling_refuted.

(** ** C62: the syntax *)
(** wop reports a syntax error exactly on the token sequences that are not grammar files, and the declarations of a file
    are determined by its tokens. *)
Theorem C62_syntax : forall text order, iterates order -> forall dbg ts, Forall (fun x => term rules (fst x)) ts ->
  ((exists ds, file_toks ts ds) <-> ~ exists e, reads text order dbg ts (Val (inr e))) /\ (forall ds ds', file_toks ts ds -> file_toks ts ds' -> ds = ds').
Proof. exact sum_syntax. Qed.
Print Assumptions C62_syntax.
Example C62_example : file_toks (toks ok_src) (decls_of ok_src) /\ List.length (decls_of ok_src) = 3 /\
  exists e, reads (slice wrong_src) keep true (toks wrong_src) (Val (inr e)).
Proof.
  destruct (fine_facts ok_src true) as (_ & _ & H3); [apply each_fine; simpl; tauto|]. split; [exact H3|]. split; [vm_compute; reflexivity|]. exists (UnexpectedToken Ident [Assign; PathAccess]).
  apply (reads_run _ _ _ 400); [vm_compute; reflexivity|discriminate].
Qed.

(** ** C63: from_str on any text *)
(** Every source text is read, or reported as a syntax error, or panics in an assertion; if read, the reductors can be
    written; no span points outside the text. *)
Theorem C63_total : forall lg order, iterates order -> forall dbg src,
  ((exists ds, file_toks (tokenize lg src) ds /\ proper src ds /\ exists b F rs,
      (forall fuel, F <= fuel -> from_str lg order dbg fuel src = Val (inl b)) /\ dump_reductor (slice src) b = Val rs) \/
   (exists ds, file_toks (tokenize lg src) ds /\ ~ proper src ds /\ exists F, forall fuel, F <= fuel -> from_str lg order dbg fuel src = Panic P_assert) \/
   ((forall ds, ~ file_toks (tokenize lg src) ds) /\ exists e F, forall fuel, F <= fuel -> from_str lg order dbg fuel src = Val (inr e))) /\
  forall ds, file_toks (tokenize lg src) ds -> forall d s, In d ds -> In s (decl_spans d) -> fst s <= snd s <= String.length src.
Proof. exact (fun lg order Ho dbg src => conj (from_str_total lg order Ho dbg src) (fun ds H => slices_in_range lg src ds H)). Qed.
Print Assumptions C63_total.
Example C63_example : forall dbg, file_toks (toks ok_src) (decls_of ok_src) /\ exists b, from_str one keep dbg 400 ok_src = Val (inl b) /\ b_imports b = [(4, 8)].
Proof. intros dbg. destruct (fine_facts ok_src true) as (_ & _ & H3); [apply each_fine; simpl; tauto|]. split; [exact H3|]. exists (built_from dbg ok_src). split; destruct dbg; vm_compute; reflexivity. Qed.

(** ** C64: the tokens *)
(** The lexer finds the tokens of the text: at each place the longest match, of the entry with the highest priority, the
    skipped ones dropped; there is only one way to do so unless nothing matches somewhere. *)
Theorem C64_tokens : forall lg src,
  lexes lg 0 src (tokenize lg src) /\ laid_out (String.length src) (tokenize lg src) /\
  (~ In SymError (map fst (tokenize lg src)) -> forall ts, lexes lg 0 src ts -> ts = tokenize lg src).
Proof.
  exact (fun lg src => conj (tokenize_lexes lg src) (conj (lexes_laid _ _ _ (tokenize_lexes lg src))
    (fun N ts H => eq_sym (lexes_unique lg 0 src _ (tokenize_lexes lg src) ts H N)))).
Qed.
Print Assumptions C64_tokens.
(** the tokens of wop's own grammar file, none of them an error *)
Example C64_example : tokenize one source = source_tokens /\ forallb (fun t => match fst t with SymError => false | _ => true end) source_tokens = true /\
  List.length source_tokens = 248.
Proof. split; [exact own_tokens|]. split; vm_compute; reflexivity. Qed.

(** ** C65: code blocks *)
(** False that a code block ends at the first [}%]: here the block of [S] swallows the rule [R]. *)
Theorem C65_refuted :
  toks brace_src = [(Ident, (0, 1)); (TwoDots, (1, 2)); (Ident, (3, 4)); (Assign, (5, 6)); (Ident, (7, 8)); (CodeBlock, (9, 40)); (Sc, (41, 42))] /\
  slice brace_src (9, 40) = "-> { {x}}% ; R: T = b -> { y }%" /\
  forall dbg, reads (slice brace_src) keep dbg (toks brace_src) (Val (inl (built_from dbg brace_src))) /\ map fst (b_rules (built_from dbg brace_src)) = ["S"].
Proof. exact (conj (proj1 brace_toks) (conj (proj2 brace_toks) brace_rules)). Qed.
Print Assumptions C65_refuted.
(** It does exactly if the number of further braces right before it is even. *)
Theorem C65_partial : forall lg d k rest, ~ contains (d ++ braces k) "}%" -> (forall d', d <> (d' ++ "}")%string) ->
  (Nat.Even k -> token_at lg (Some CodeBlock) ("->" ++ (d ++ braces k) ++ "}%") rest) /\
  (Nat.Odd k -> forall x, ~ token_at lg x ("->" ++ (d ++ braces k) ++ "}%") rest).
Proof. exact code_block_end. Qed.
Print Assumptions C65_partial.
Example C65_example : ~ contains (" { {x " ++ braces 2) "}%" /\ forall d', " { {x " <> (d' ++ "}")%string.
Proof.
  split.
  - intros (a & b & E). do 8 (destruct a as [|? a]; [discriminate E|apply (f_equal (fun s => match s with String _ t => t | EmptyString => EmptyString end)) in E; cbn in E]). destruct a; discriminate E.
  - intros d' E. do 6 (destruct d' as [|? d']; [discriminate E|apply (f_equal (fun s => match s with String _ t => t | EmptyString => EmptyString end)) in E; cbn in E]). destruct d'; discriminate E.
Qed.

(** ** C66: types of the statements *)
(** False that the statements compile: for an absent aliased group wop writes [Some(toks[0].to_vec())]. *)
Theorem C66_refuted : forall dbg, exists alt r bs c, emits (slice opt_src) keep dbg (toks opt_src) alt r bs c /\ exists b, In b bs /\ stmt_type b = None /\
  binding_text b = ("let mut x = Some(toks[0].to_vec()); x = None; let x = x;" ++ String (ascii_of_nat 10) "")%string.
Proof. exact opt_emits. Qed.
Print Assumptions C66_refuted.
(** They do if no optional group has an alias.  Missing: which statements of such groups are well typed. *)
Theorem C66_partial : forall text order, iterates order -> forall dbg ts alt r bs c, emits text order dbg ts alt r bs c ->
  forallb solid (fst alt) = true -> forall b, In b bs -> stmt_type b <> None.
Proof. exact (fun text order Ho dbg ts alt r bs c He => proj1 (proj2 (proj2 (emits_right text order dbg Ho ts alt r bs c He)))). Qed.
Print Assumptions C66_partial.
Example C66_example : forall dbg, emits (slice ok_src) keep dbg (toks ok_src) ok_alt ok_run ok_bs " { f(l, r, g, x) }" /\ forallb solid (fst ok_alt) = true /\
  map (fun b => (bd_name b, stmt_type b)) ok_bs = [("l", Some TItem); ("g", Some TVec); ("r", Some (TOption TItem)); ("x", Some (TOption TItem))].
Proof. intros dbg. split; [apply ok_emits|split; vm_compute; reflexivity]. Qed.

(** Exactly, if the names of the alternative differ: all statements of all its productions compile if and only if none of its
    items is an optional group with an alias (inside groups there may be some). *)
Theorem C66_exact : forall text order dbg, iterates order -> forall ts alt r0 bs0 c0, emits text order dbg ts alt r0 bs0 c0 -> NoDup (pipe_names text (fst alt)) ->
  ((forall r bs c, emits text order dbg ts alt r bs c -> forall b, In b bs -> stmt_type b <> None) <-> forallb firm (fst alt) = true).
Proof. exact firm_exact. Qed.
Print Assumptions C66_exact.
Example C66_exact_example : forall dbg,
  (exists r bs, emits (slice neat_src) keep dbg (toks neat_src) neat_alt r bs " { c }" /\ List.length (fst r) = 4 /\ List.length bs = 5) /\ NoDup (pipe_names (slice neat_src) (fst neat_alt)) /\ forallb firm (fst neat_alt) = true /\
  exists alt r bs c, emits (slice opt_src) keep dbg (toks opt_src) alt r bs c /\ NoDup (pipe_names (slice opt_src) (fst alt)) /\ forallb firm (fst alt) = false.
Proof. intros dbg. destruct neat_facts as (A & _ & _ & B & _). split; [apply neat_emits|]. split; [exact A|]. split; [exact B|apply opt_facts]. Qed.

(** ** C67: one type per name *)
(** False that a name has the same type in all productions of an alternative, which share its code block: in [(A:x | B)]
    it is [Option<Item>] or [Option<&Item>]. *)
Theorem C67_refuted : forall dbg, exists alt r bs r' bs' c, emits (slice alt_src) keep dbg (toks alt_src) alt r bs c /\ emits (slice alt_src) keep dbg (toks alt_src) alt r' bs' c /\
  map (fun b => (bd_name b, stmt_type b)) bs = [("x", Some (TOption TItem))] /\ map (fun b => (bd_name b, stmt_type b)) bs' = [("x", Some (TOption TRef))].
Proof. exact alt_emits. Qed.
Print Assumptions C67_refuted.
(** True, with the types of [signature], if aliases occur only outside groups and not on optional groups.  Missing: groups
    whose alternatives have the same aliases. *)
Theorem C67_partial : forall text order, iterates order -> forall dbg ts alt r bs c, emits text order dbg ts alt r bs c ->
  forallb flat (fst alt) = true -> map (fun b => (bd_name b, stmt_type b)) bs = signature text (fst alt).
Proof. exact (fun text order Ho dbg ts alt r bs c He => proj1 (proj2 (proj2 (proj2 (emits_right text order dbg Ho ts alt r bs c He))))). Qed.
Print Assumptions C67_partial.
Example C67_example : forall dbg, exists r bs c, emits (slice ref_src) keep dbg (toks ref_src) ([PSym (7, 8) false (Some (9, 10)) false; PSym (11, 12) false (Some (14, 15)) true], (16, 25)) r bs c /\
  map (fun b => (bd_name b, stmt_type b)) bs = [("x", Some TItem); ("y", Some TItem)].
Proof. exact ref_emits. Qed.

(** Exactly, if the names of the alternative differ: they have the same types in all its productions if and only if none of
    its items is an optional group with an alias, and every group with aliases inside has one alternative only and is not
    optional, unless it has an alias itself and the groups inside it have none. *)
Theorem C67_exact : forall text order dbg, iterates order -> forall ts alt r0 bs0 c0, emits text order dbg ts alt r0 bs0 c0 -> NoDup (pipe_names text (fst alt)) ->
  ((exists ty, forall r bs c, emits text order dbg ts alt r bs c -> forall b, In b bs -> stmt_type b = Some (ty (bd_name b))) <->
   forallb (fun p => firm p && even p) (fst alt) = true).
Proof. exact even_exact. Qed.
Print Assumptions C67_exact.
Example C67_exact_example : forall dbg,
  (exists r bs, emits (slice neat_src) keep dbg (toks neat_src) neat_alt r bs " { c }" /\ List.length (fst r) = 4 /\ List.length bs = 5) /\ NoDup (pipe_names (slice neat_src) (fst neat_alt)) /\
  (forallb firm (fst neat_alt) = true /\ forallb even (fst neat_alt) = true) /\
  exists alt r bs c, emits (slice alt_src) keep dbg (toks alt_src) alt r bs c /\ NoDup (pipe_names (slice alt_src) (fst alt)) /\ forallb firm (fst alt) = true /\ forallb even (fst alt) = false.
Proof. intros dbg. destruct neat_facts as (A & _ & _ & B & C). split; [apply neat_emits|]. split; [exact A|]. split; [auto|apply alt_facts]. Qed.

(** ** C68: borrowing *)
(** False that an alias without [&] borrows: both [A:x] and [B:&y] are cloned. *)
Theorem C68_refuted : forall dbg, exists r bs c, emits (slice ref_src) keep dbg (toks ref_src) ([PSym (7, 8) false (Some (9, 10)) false; PSym (11, 12) false (Some (14, 15)) true], (16, 25)) r bs c /\
  map (fun b => (bd_name b, stmt_type b)) bs = [("x", Some TItem); ("y", Some TItem)].
Proof. exact ref_emits. Qed.
Print Assumptions C68_refuted.

(** The [&] is ignored: two files whose declarations differ in [&] only are read as the same builder, or both not. *)
Theorem C68_ignored_partial : forall text order dbg ts ds ts' ds' r, file_toks ts ds -> file_toks ts' ds' -> map unref_decl ds = map unref_decl ds' ->
  reads text order dbg ts r -> reads text order dbg ts' r.
Proof. exact reads_unref. Qed.
Print Assumptions C68_ignored_partial.
Example C68_example : forall dbg, exists ds ds' b, file_toks (toks ref_src) ds /\ file_toks unref_toks ds' /\ ds <> ds' /\ map unref_decl ds = map unref_decl ds' /\
  reads (slice ref_src) keep dbg (toks ref_src) (Val (inl b)).
Proof. exact unref_facts. Qed.

(** ** C69: indexing *)
(** False that the reductors never index out of range. *)
Theorem C69_refuted : forall dbg, exists bs, emits (slice bad_src) keep dbg (toks bad_src) bad_alt ([(7, 8)], []) bs " { x }" /\
  exists b, In b bs /\ bd_name b = "x" /\ run_binding [tt] b = Panic P_index.
Proof. exact bad_emits. Qed.
Print Assumptions C69_refuted.
(** The reductor of an empty production always does. *)
Theorem C69_empty_refuted : forall dbg, exists alt r bs c, emits (slice void_src) keep dbg (toks void_src) alt r bs c /\ good (slice void_src) (fst alt) /\ fst r = [] /\ bs = [] /\
  forall A B (code : list (string * bound A) -> B) (toks : list A), List.length toks = List.length (fst r) -> run_reductor code bs toks = Panic P_index.
Proof. exact void_emits. Qed.
Print Assumptions C69_empty_refuted.
(** They do not for nonempty productions of the patterns [good] describes, unless an alias is called [toks]. *)
Theorem C69_partial : forall text order, iterates order -> forall dbg ts alt r bs c,
  emits text order dbg ts alt r bs c -> good text (fst alt) -> fst r <> [] -> ~ In "toks" (pipe_names text (fst alt)) ->
  forall A B (code : list (string * bound A) -> B) (toks : list A), List.length toks = List.length (fst r) -> exists v, run_reductor code bs toks = Val v.
Proof. exact reductors_run. Qed.
Print Assumptions C69_partial.
Example C69_example : forall dbg, emits (slice ok_src) keep dbg (toks ok_src) ok_alt ok_run ok_bs " { f(l, r, g, x) }" /\ good (slice ok_src) (fst ok_alt) /\ fst ok_run <> [] /\
  ~ In "toks" (pipe_names (slice ok_src) (fst ok_alt)).
Proof. intros dbg. split; [apply ok_emits|]. split; [apply ok_good|]. split; [vm_compute; discriminate|vm_compute; intuition discriminate]. Qed.

(** ** C70: names of the reductor functions *)
Theorem C70_distinct : forall n i m j, fn_name n i = fn_name m j -> n = m /\ i = j.
Proof. exact fn_name_inj. Qed.
Print Assumptions C70_distinct.
Example C70_example : fn_name "A" 1 = "lrp_wop_A_1" /\ fn_name "A_1" 0 = "lrp_wop_A_1_0".
Proof. split; reflexivity. Qed.
(** They are identifiers exactly if the name of the rule is one; a path is not. *)
Theorem C70_identifier_refuted : forall dbg, reads (slice path_src) keep dbg (toks path_src) (Val (inl (built_from dbg path_src))) /\ map fst (b_rules (built_from dbg path_src)) = ["a::S"] /\
  fn_name "a::S" 0 = "lrp_wop_a::S_0" /\ all_chars ident_char (fn_name "a::S" 0) = false.
Proof. exact path_rules. Qed.
Print Assumptions C70_identifier_refuted.
Theorem C70_identifier_partial : forall n i, all_chars ident_char (fn_name n i) = all_chars ident_char n.
Proof. exact fn_name_ident. Qed.
Print Assumptions C70_identifier_partial.

(** ** C71: where an alias applies *)
(** False that an alias applies to the whole file: in [late_src] the rule [S], declared before the alias of ["+"], keeps the
    literal. *)
Theorem C71_refuted : forall dbg, reads (slice late_src) keep dbg (toks late_src) (Val (inl (built_from dbg late_src))) /\ file_toks (toks late_src) (decls_of late_src) /\
  alias_keys (slice late_src) (decls_of late_src) = ["N"; """+"""] /\
  dump_grammar (slice late_src) (built_from dbg late_src) = [("N", [["a"; "Plus"]]); ("S", [["""+"""; "M"]])].
Proof. exact (fun dbg => let H := late_facts dbg in conj (proj1 H) (conj (proj1 (proj2 H)) (conj (proj1 (proj2 (proj2 H))) (proj2 (proj2 (proj2 (proj2 H))))))). Qed.
Print Assumptions C71_refuted.
(** It does for rules no alias declared behind which occurs in. *)
Theorem C71_partial : forall text order, iterates order -> forall dbg ts ds b es,
  reads text order dbg ts (Val (inl b)) -> file_toks ts ds -> Permutation es (dump_grammar text b) ->
  forall ds1 name ty alts ds2, ds = ds1 ++ DRule name ty alts :: ds2 ->
    (forall r s, In r (flat_map (fun alt => expand (fst alt)) alts) -> In s r -> ~ In (text s) (alias_keys text ds2)) ->
    forall i w, prod_at (grammar_map es) (text name) i w <->
      exists r, nth_error (flat_map (fun alt => expand (fst alt)) alts) i = Some r /\ w = map (fun s => text (resolve text ds s)) r.
Proof. exact aliases_everywhere. Qed.
Print Assumptions C71_partial.
Example C71_example : forall dbg, reads (slice ok_src) keep dbg (toks ok_src) (Val (inl (built_from dbg ok_src))) /\ exists ds1 name ty alts ds2,
  file_toks (toks ok_src) (ds1 ++ DRule name ty alts :: ds2) /\ alias_keys (slice ok_src) ds1 = ["""+"""] /\ alias_keys (slice ok_src) ds2 = [].
Proof.
  intros dbg. destruct (fine_facts ok_src dbg) as (H1 & _ & H3); [apply each_fine; simpl; tauto|]. split; [exact H1|].
  destruct (decls_of ok_src) as [|d1 [|d2 [|[name ty alts| |] [|]]]] eqn:E; try (exfalso; vm_compute in E; discriminate E).
  exists [d1; d2], name, ty, alts, []. split; [exact H3|]. split; [|reflexivity]. vm_compute in E. injection E as <- <- _ _ _. vm_compute. reflexivity.
Qed.

(** Exactly: a rule has its symbols replaced as the whole file says just if no alias declared behind it gives one of them another text. *)
Theorem C71_exact : forall text order, iterates order -> forall dbg ts ds b es,
  reads text order dbg ts (Val (inl b)) -> file_toks ts ds -> Permutation es (dump_grammar text b) ->
  forall ds1 name ty alts ds2, ds = ds1 ++ DRule name ty alts :: ds2 ->
    (forall i w, prod_at (grammar_map es) (text name) i w <->
      exists r, nth_error (flat_map (fun alt => expand (fst alt)) alts) i = Some r /\ w = map (fun s => text (resolve text ds s)) r) <->
    (forall r s tk a, In r (flat_map (fun alt => expand (fst alt)) alts) -> In s r -> In (DAlias tk a) ds2 -> text tk = text s -> text a = text s).
Proof. exact aliases_exact. Qed.
Print Assumptions C71_exact.
(** the rule [S] of [late_src], with the alias of ["+"] behind it and that of [N] before it *)
Example C71_C72_exact_example : forall dbg, reads (slice late_src) keep dbg (toks late_src) (Val (inl (built_from dbg late_src))) /\
  exists n m ty alts p q d, file_toks (toks late_src) ([DAlias n m] ++ DRule (fst d) ty alts :: [DAlias p q; snd d]) /\
    map (slice late_src) [n; m; fst d; p; q] = ["N"; "M"; "S"; """+"""; "Plus"] /\
    map (map (slice late_src)) (flat_map (fun alt => expand (fst alt)) alts) = [["""+"""; "N"]].
Proof.
  intros dbg. destruct (late_facts dbg) as (H1 & H3 & _). split; [exact H1|].
  destruct (decls_of late_src) as [|[| |n m] [|[name ty alts| |] [|[| |p q] [|d [|]]]]] eqn:E; try (exfalso; vm_compute in E; discriminate E).
  exists n, m, ty, alts, p, q, (name, d). split; [exact H3|]. vm_compute in E. injection E as <- <- <- <- <- <- <- _. split; vm_compute; reflexivity.
Qed.

(** ** C72: references to rules *)
(** False that a symbol with the name of a rule is that rule: in [late_src], [N] is a rule and an alias. *)
Theorem C72_refuted : forall dbg, reads (slice late_src) keep dbg (toks late_src) (Val (inl (built_from dbg late_src))) /\ file_toks (toks late_src) (decls_of late_src) /\
  rule_names (slice late_src) (decls_of late_src) = ["S"; "N"] /\
  dump_grammar (slice late_src) (built_from dbg late_src) = [("N", [["a"; "Plus"]]); ("S", [["""+"""; "M"]])].
Proof. exact (fun dbg => let H := late_facts dbg in conj (proj1 H) (conj (proj1 (proj2 H)) (proj2 (proj2 (proj2 H))))). Qed.
Print Assumptions C72_refuted.
(** It is if no alias has the name of a rule. *)
Theorem C72_partial : forall text order, iterates order -> forall dbg ts ds b es,
  reads text order dbg ts (Val (inl b)) -> file_toks ts ds -> Permutation es (dump_grammar text b) ->
  (forall n, In n (alias_keys text ds) -> ~ In n (rule_names text ds)) ->
  forall ds1 name ty alts ds2, ds = ds1 ++ DRule name ty alts :: ds2 ->
    forall i r, nth_error (flat_map (fun alt => expand (fst alt)) alts) i = Some r ->
      exists w, prod_at (grammar_map es) (text name) i w /\ List.length w = List.length r /\
        forall k s, nth_error r k = Some s -> In (text s) (rule_names text ds) -> nth_error w k = Some (text s).
Proof. exact rules_stay. Qed.
Print Assumptions C72_partial.
Example C72_example : forall dbg, reads (slice ok_src) keep dbg (toks ok_src) (Val (inl (built_from dbg ok_src))) /\ file_toks (toks ok_src) (decls_of ok_src) /\
  alias_keys (slice ok_src) (decls_of ok_src) = ["""+"""] /\ rule_names (slice ok_src) (decls_of ok_src) = ["E"].
Proof. intros dbg. destruct (fine_facts ok_src dbg) as (H1 & _ & H3); [apply each_fine; simpl; tauto|]. split; [exact H1|]. split; [exact H3|]. split; vm_compute; reflexivity. Qed.

(** Exactly: the names of rules stay in the productions of a rule just if no alias declared before it gives one of them another text. *)
Theorem C72_exact : forall text order, iterates order -> forall dbg ts ds b es,
  reads text order dbg ts (Val (inl b)) -> file_toks ts ds -> Permutation es (dump_grammar text b) ->
  forall ds1 name ty alts ds2, ds = ds1 ++ DRule name ty alts :: ds2 ->
    (forall i r w k s, nth_error (flat_map (fun alt => expand (fst alt)) alts) i = Some r -> prod_at (grammar_map es) (text name) i w ->
       nth_error r k = Some s -> In (text s) (rule_names text ds) -> nth_error w k = Some (text s)) <->
    (forall r s tk a, In r (flat_map (fun alt => expand (fst alt)) alts) -> In s r -> In (text s) (rule_names text ds) ->
       In (DAlias tk a) ds1 -> text tk = text s -> text a = text s).
Proof. exact rules_exact. Qed.
Print Assumptions C72_exact.

(** ** C73: main *)
(** On any source text [main] writes the code of the file read and returns [Ok], or panics in an assertion because the file
    is not valid, or meets a syntax error.  Then it panics, or it writes the code of a beginning of the file and returns the error. *)
Theorem C73_main : forall lg order, iterates order -> forall iter, (forall l, Permutation (iter l) l) -> forall dbg src,
  (exists ds b s, file_toks (tokenize lg src) ds /\ valid (slice src) ds /\ reads (slice src) order dbg (tokenize lg src) (Val (inl b)) /\
     write_out (slice src) b (iter (b_rules b)) = Val s /\ runs_main lg order iter dbg src (Val (Ok, s))) \/
  (exists ds, file_toks (tokenize lg src) ds /\ ~ valid (slice src) ds /\ runs_main lg order iter dbg src (Panic P_assert)) \/
  ((forall ds, ~ file_toks (tokenize lg src) ds) /\ exists e, reads (slice src) order dbg (tokenize lg src) (Val (inr e)) /\
   ((exists p, (p = P_index \/ p = P_unlisted \/ p = P_assert) /\ runs_main lg order iter dbg src (Panic p)) \/
    exists ts1 ts2 ds b s, tokenize lg src = ts1 ++ ts2 /\ file_toks ts1 ds /\ valid (slice src) ds /\ reads (slice src) order dbg ts1 (Val (inl b)) /\
      write_out (slice src) b (iter (b_rules b)) = Val s /\ runs_main lg order iter dbg src (Val (Err e, s)))).
Proof. exact runs_main_cases. Qed.
Print Assumptions C73_main.
Example C73_example : forall dbg, runs_main one keep same dbg ok_src (Val (Ok, written dbg ok_src)) /\
  contains (written dbg ok_src) "	map.insert(E, lrp::grammar::Rule::new(E, vec![".
Proof. exact main_ok. Qed.

(** ** C74: nothing is written after a syntax error *)
(** False: the code of the declarations before the error overwrites out.rs. *)
Theorem C74_refuted : forall dbg, runs_main one keep same dbg wrong_src (Val (Err (UnexpectedToken Ident [Assign; PathAccess]), written dbg wrong_src)) /\
  contains (written dbg wrong_src) "map.insert(S, vec![lrp_wop_S_0, ".
Proof. exact main_writes. Qed.
Print Assumptions C74_refuted.
(** Nor is the error always returned: [main] may panic instead. *)
Theorem C74_panic_refuted : forall dbg, runs_main one keep same dbg stray_src (Panic P_unlisted) /\ runs_main one keep same dbg "" (Panic P_index) /\
  from_str one keep dbg 400 stray_src = Val (inr (UnexpectedToken CloseParen [AliasWord; UseWord; Ident; Eof])).
Proof. exact main_panics. Qed.
Print Assumptions C74_panic_refuted.

(** ** C75: dump_reductor after from_str *)
(** False that [dump_reductor] never panics: a builder made by [from_str] has no entry type. *)
Theorem C75_refuted : forall dbg, reads (slice ok_src) keep dbg (toks ok_src) (Val (inl (built_from dbg ok_src))) /\
  dump_reductor_text (slice ok_src) "" (built_from dbg ok_src) (b_rules (built_from dbg ok_src)) = Panic P_assert.
Proof. exact no_entry. Qed.
Print Assumptions C75_refuted.
(** Given one, it does not. *)
Theorem C75_partial : forall lg order, iterates order -> forall dbg src ds b rules entry,
  file_toks (tokenize lg src) ds -> reads (slice src) order dbg (tokenize lg src) (Val (inl b)) -> Permutation rules (b_rules b) -> entry <> "" ->
  exists s, dump_reductor_text (slice src) entry b rules = Val s.
Proof. exact sum_dump. Qed.
Print Assumptions C75_partial.
(** Without one it never returns. *)
Theorem C75_exact : forall lg order, iterates order -> forall dbg src ds b rules entry,
  file_toks (tokenize lg src) ds -> reads (slice src) order dbg (tokenize lg src) (Val (inl b)) -> Permutation rules (b_rules b) ->
  ((exists s, dump_reductor_text (slice src) entry b rules = Val s) <-> entry <> "").
Proof. exact sum_dump_exact. Qed.
Print Assumptions C75_exact.
Example C75_example : forall dbg, exists s, dump_reductor_text (slice ok_src) "Gramem" (built_from dbg ok_src) (b_rules (built_from dbg ok_src)) = Val s /\
  contains s "let l = toks[0].clone();".
Proof.
  intros dbg. exists (match dump_reductor_text (slice ok_src) "Gramem" (built_from dbg ok_src) (b_rules (built_from dbg ok_src)) with Val s => s | _ => "" end).
  split; [|apply has_contains]; destruct dbg; vm_compute; reflexivity.
Qed.

(** ** C76: the text of the grammar *)
(** Read as Rust code, the text written for the grammar inserts exactly the rules of the builder, provided names are
    without newlines, commas, blanks and closing brackets. *)
Theorem C76_reads_back : forall text b rules, plain_builder text b -> Permutation rules (b_rules b) ->
  read_rules (dump_grammar_text text b rules) = map (fun e => (fst e, dump_rule text (snd e))) rules.
Proof. exact read_dump. Qed.
Print Assumptions C76_reads_back.
Example C76_example : forall dbg, plain_builder (slice ok_src) (built_from dbg ok_src) /\ read_rules (dump_grammar_text (slice ok_src) (built_from dbg ok_src) (b_rules (built_from dbg ok_src))) =
    [("E", [["E"; "Plus"; "N"; "X"]; ["E"; "Plus"; "N"]; ["E"; "Plus"; """("""; "L"; "X"]; ["E"; "Plus"; """("""; "L"]; ["N"]])].
Proof. intros dbg. split; [|destruct dbg; vm_compute; reflexivity]. apply ok_plain. Qed.
