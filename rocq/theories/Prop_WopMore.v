(** C108-C111, C115: wop's README, wop in itself, its comments, the order of its hash sets *)
From Coq Require Import List Bool Arith Ascii String Permutation.
From Verif Require Import BTree Model Strings Wop WopSpec WopText WopGen WopMeansSpec WopMeansEx WopLex WopLexSpec WopRead WopEx Spec WopComment WopReadme WopOrderSpec WopOrderR WopOrderEx WopBoot WopWide WopSelf WopSelfP WopOut.
Import ListNotations.
Local Open Scope string_scope.
Local Open Scope list_scope.
Local Open Scope nat_scope.

(** ** C108: the README *)
(** The example of wop's README is a syntax error, at the [=] of its first alias. *)
Theorem C108_refuted : forall dbg, reads (slice readme_src) keep dbg (toks readme_src) (Val (inr (UnexpectedToken Assign [Ident; IdentPath]))).
Proof. exact readme_reads. Qed.
Print Assumptions C108_refuted.
(** With the aliases and the missing semicolon corrected it is read, but no text is a sentence of the grammar written: the alias
    of ["+"] has the name of the rule [Add], so that [Add] needs an [Add]. *)
Theorem C108_clash_refuted : forall dbg, reads (slice readme_fixed) keep dbg (toks readme_fixed) (Val (inl (built_from dbg readme_fixed))) /\
  forall w, ~ sentence (grammar_map (dump_grammar (slice readme_fixed) (built_from dbg readme_fixed))) "EntryPoint" w.
Proof. exact (fun dbg => conj (proj1 (fine_facts _ dbg fixed_fine)) (fun w => eq_ind_r (fun r => ~ sentence r "EntryPoint" w) (fixed_empty w) (fixed_dump dbg))). Qed.
Print Assumptions C108_clash_refuted.
(** With another name for that token the sentences are the sums of two numbers within brackets. *)
Theorem C108_partial : forall dbg, reads (slice readme_plus) keep dbg (toks readme_plus) (Val (inl (built_from dbg readme_plus))) /\
  forall w, sentence (grammar_map (dump_grammar (slice readme_plus) (built_from dbg readme_plus))) "EntryPoint" w <->
    exists n, w = repeat "OpenParen" n ++ ["Number"; "Plus"; "Number"] ++ repeat "CloseParen" n.
Proof. exact (fun dbg => conj (proj1 (fine_facts _ dbg plus_fine)) (fun w => eq_ind_r (fun r => sentence r "EntryPoint" w <-> exists n, w = nest n ["Number"; "Plus"; "Number"]) (plus_nested w) (plus_dump dbg))). Qed.
Print Assumptions C108_partial.
Example C108_example : sentence plus_rules "EntryPoint" ["OpenParen"; "OpenParen"; "Number"; "Plus"; "Number"; "CloseParen"; "CloseParen"] /\
  ~ sentence plus_rules "EntryPoint" ["OpenParen"; "Number"; "Plus"; "Number"].
Proof.
  split; [apply plus_nested; now exists 2|]. intros H. apply plus_nested in H as (n & E). destruct n as [|[|n]]; discriminate E.
Qed.

(** ** C110: comments and literals *)
(** False that a block comment ends at the first [*/]: the comment [/***/] goes on to the end of the file and takes a rule with it. *)
Theorem C110_refuted : forall dbg, file_toks (toks star_src) (decls_of star_src) /\ star_src = "S: T = a -> { x }% ; /***/ R: T = b -> { y }% ; /* end */" /\
  reads (slice star_src) keep dbg (toks star_src) (Val (inl (built_from dbg star_src))) /\ map fst (b_rules (built_from dbg star_src)) = ["S"].
Proof. exact (fun dbg => conj (proj2 (proj2 (fine_facts _ dbg star_fine))) (conj eq_refl (conj (proj1 (fine_facts _ dbg star_fine)) (star_rules dbg)))). Qed.
Print Assumptions C110_refuted.
(** It does exactly if the number of further asterisks right before it is even. *)
Theorem C110_block_partial : forall lg d k rest, ~ contains (d ++ stars k) "*/" -> (forall d', d <> (d' ++ "*")%string) ->
  (Nat.Even k -> token_at lg None ("/*" ++ (d ++ stars k) ++ "*/") rest) /\
  (Nat.Odd k -> forall x, ~ token_at lg x ("/*" ++ (d ++ stars k) ++ "*/") rest).
Proof. exact comment_end. Qed.
Print Assumptions C110_block_partial.
Example C110_block_example : ~ contains (" a / b " ++ stars 2) "*/" /\ forall d', " a / b " <> (d' ++ "*")%string.
Proof.
  split.
  - intros (a & b & E). do 9 (destruct a as [|? a]; [discriminate E|apply (f_equal (fun s => match s with String _ t => t | EmptyString => EmptyString end)) in E; cbn in E]). destruct a; discriminate E.
  - intros d' E. do 7 (destruct d' as [|? d']; [discriminate E|apply (f_equal (fun s => match s with String _ t => t | EmptyString => EmptyString end)) in E; cbn in E]). destruct d'; discriminate E.
Qed.
(** Line comments end with the line. *)
Theorem C110_line : forall lg d rest, one_line d -> line_ends rest -> token_at lg None ("//" ++ d) rest.
Proof. exact line_end. Qed.
Print Assumptions C110_line.
Example C110_line_example : one_line " see /* there " /\ line_ends (String (ascii_of_nat 10) "*/").
Proof. split; [|right; eauto]. intros (a & b & E). do 14 (destruct a as [|? a]; [discriminate E|apply (f_equal (fun s => match s with String _ t => t | EmptyString => EmptyString end)) in E; cbn in E]). destruct a; discriminate E. Qed.
(** String literals are exactly the texts between quotes in which every quote and backslash is escaped; what follows does not matter. *)
Theorem C110_string : forall lg w rest, token_at lg (Some StrLit) w rest <-> exists d, w = String """" (d ++ """") /\ literal d.
Proof. exact string_end. Qed.
Print Assumptions C110_string.
Example C110_string_example : literal "a\""b\\" /\ ~ literal "a""b" /\ ~ literal "ab\".
Proof.
  split; [|split].
  - apply lit_char; [discriminate..|]. apply (lit_escape """"%char); [discriminate|]. apply lit_char; [discriminate..|]. apply (lit_escape "\"%char); [discriminate|]. constructor.
  - intros H. repeat match goal with H : literal (String _ _) |- _ => inversion H; clear H; subst; try easy end.
  - intros H. repeat match goal with H : literal (String _ _) |- _ => inversion H; clear H; subst; try easy end.
Qed.

(** ** C111: the order of the names in wop's hash sets *)
(** False that it does not matter to what is written: the statements of a reductor are in that order. *)
Theorem C111_refuted : forall dbg, iterates keep /\ iterates backward /\ exists b b' s s',
  reads (slice order_src) keep dbg (toks order_src) (Val (inl b)) /\ reads (slice order_src) backward dbg (toks order_src) (Val (inl b')) /\
  write_out (slice order_src) b (b_rules b) = Val s /\ write_out (slice order_src) b' (b_rules b') = Val s' /\ s <> s'.
Proof. exact (fun dbg => conj keep_iterates (conj backward_iterates (order_refuted dbg))). Qed.
Print Assumptions C111_refuted.
(** But it does not matter otherwise: errors and panics are the same, and so are imports, grammar and code blocks, and the statements
    binding any one name, in their order. *)
Theorem C111_partial : forall lg order order' dbg src r, iterates order -> iterates order' -> reads (slice src) order dbg (tokenize lg src) r ->
  match r with
  | Val (inl b) => exists b', reads (slice src) order' dbg (tokenize lg src) (Val (inl b')) /\ same_output (slice src) b b'
  | _ => reads (slice src) order' dbg (tokenize lg src) r
  end.
Proof. exact from_str_same. Qed.
Print Assumptions C111_partial.
(** So the parsers made from what is written are the same: on every input they end alike, with the same value if with one, provided
    no reductor binds [toks]. *)
Theorem C111_parser : forall lg order order' dbg src b b' rs rs' qs qs' es es' (V : Type) (code : string -> list (gtok V) -> (string -> option (bound (gtok V))) -> V),
  iterates order -> iterates order' ->
  reads (slice src) order dbg (tokenize lg src) (Val (inl b)) -> reads (slice src) order' dbg (tokenize lg src) (Val (inl b')) ->
  dump_reductor (slice src) b = Val rs -> dump_reductor (slice src) b' = Val rs' -> Permutation qs rs -> Permutation qs' rs' ->
  Permutation es (dump_grammar (slice src) b) -> Permutation es' (dump_grammar (slice src) b') ->
  respects code -> (forall n fs f, In (n, fs) rs -> In f fs -> ~ In "toks" (map bd_name (fst f))) ->
  grammar_map es = grammar_map es' /\ forall fuel t input, parser_parse fuel t input (gen_maps code qs) = parser_parse fuel t input (gen_maps code qs').
Proof. exact @same_parser. Qed.
Print Assumptions C111_parser.
(** [S: T = (A:x B:y | C) D:z -> { f(x, y, z) }% ;] *)
Example C111_example : forall dbg, reads (slice order_src) keep dbg (toks order_src) (Val (inl (built_from dbg order_src))) /\ reads (slice order_src) backward dbg (toks order_src) (Val (inl (built_back dbg order_src))) /\
  dump_reductor (slice order_src) (built_from dbg order_src) = Val [("S", [([here "x" 0; here "y" 1; last_z 2], " { f(x, y, z) }"); ([gone "x"; gone "y"; last_z 1], " { f(x, y, z) }")])] /\
  dump_reductor (slice order_src) (built_back dbg order_src) = Val [("S", [([here "x" 0; here "y" 1; last_z 2], " { f(x, y, z) }"); ([gone "y"; gone "x"; last_z 1], " { f(x, y, z) }")])] /\
  respects sums_code.
Proof.
  intros dbg. split; [exact (proj1 (fine_facts _ dbg order_fine))|]. split; [apply order_back|]. split; [apply order_rs|]. split; [apply order_rs'|]. exact sums_respects.
Qed.

(** ** C109: wop is written in itself *)
(** Whatever the order of its hash sets and whatever letters beyond ASCII an identifier may have, wop reads its own grammar file; and
    the grammar it writes for it and the reductors, with the file's code blocks, behave like those of out.rs: the parser is the same
    function, and so is the front end, on every input. *)
Theorem C109 : forall lg order dbg, beyond_ascii lg -> iterates order ->
  exists b rs, reads (slice source) order dbg (tokenize lg source) (Val (inl b)) /\ dump_reductor (slice source) b = Val rs /\
  forall es qs, Permutation es (dump_grammar (slice source) b) -> Permutation qs rs ->
    grammar_map (own_rules es) = grammar_map wop_rules /\
    (forall fuel t input, parser_parse fuel t input (own_maps qs) = parser_parse fuel t input wop_maps) /\
    forall text' order' dbg' fuel input, from_tokens_of (own_rules es) (own_maps qs) text' order' dbg' fuel input = from_tokens text' order' dbg' fuel input.
Proof. exact own_wop. Qed.
Print Assumptions C109.
(** [S: T = (A:x B:y | C) D:z -> { f(x, y, z) }% ;] read by wop made from its own grammar file *)
Example C109_example : beyond_ascii one /\ forall dbg, dump_reductor (slice source) (own_built dbg) = Val own_written /\
  from_tokens_of (own_rules (dump_grammar (slice source) (own_built dbg))) (own_maps own_written) (slice order_src) keep dbg 400 (map (fun t => lexed (fst t) (snd t)) (toks order_src)) =
  Val (inl (built_from dbg order_src)) /\ map fst (b_rules (built_from dbg order_src)) = ["S"].
Proof. split; [constructor|]. intros dbg. split; [apply own_reductors|]. split; destruct dbg; vm_compute; reflexivity. Qed.

(** ** C115: out.rs is up to date *)
(** wop's out.rs is what wop writes for wop.grammar, token for token: in some order of the imports and of the rules, and but for the
    commas before closing brackets. *)
Theorem C115 : forall dbg, exists b imports rules s, reads (slice source) keep dbg (toks source) (Val (inl b)) /\
  Permutation imports (b_imports b) /\ Permutation rules (b_rules b) /\
  write_out (slice source) (with_imports b imports) rules = Val s /\ same_code s out_rs.
Proof. exact out_current. Qed.
Print Assumptions C115.
(** commas before brackets and layout are all that [same_code] ignores *)
Example C115_example : same_code "fn f() { g(1, 2,) }" "fn f()
  { g(1, 2) }" /\ ~ same_code "g(1, 2)" "g(12)" /\ ~ same_code "g(1, 2)" "g(2, 1)" /\ ~ same_code "" out_rs.
Proof. split; [vm_compute; reflexivity|]. repeat split; intros H; vm_compute in H; discriminate. Qed.
