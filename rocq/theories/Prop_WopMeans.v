(** What the parser generated from a grammar file computes. *)
From Coq Require Import List Bool Arith String Permutation.
From Verif Require Import BTree Model Strings Wop WopSpec WopLex WopText WopGen WopMeansSpec WopRead WopEx Spec Interface Check WopMeans WopMeansEx.
Import ListNotations.
Local Open Scope string_scope.
Local Open Scope list_scope.

(** ** C107 *)
(** A parser made, by whatever method, from the grammar wop writes for a file, run with the reductors wop writes for it,
    returns exactly the values the file says its input means, and none of its reductors panics. *)
Theorem C107_means : forall text order, iterates order -> forall dbg (V : Type) (code : string -> list (gtok V) -> (string -> option (bound (gtok V))) -> V) ts ds b es rs rs',
  reads text order dbg ts (Val (inl b)) -> file_toks ts ds -> Permutation es (dump_grammar text b) -> dump_reductor text b = Val rs -> Permutation rs' rs ->
  sane text ds -> respects code -> forall start eof g k t, grammar_new dbg start (grammar_map es) eof = Val g -> makes k dbg g t -> k <> LALR \/ carries t ->
  ~ In eof (rule_names text ds) -> start_fresh (grammar_map es) start -> conflicts (t_actions t) = [] ->
  forall w m, parses t (map sent w) (gen_maps code rs') (POk m) <-> exists v, m = Val v /\ means_file text code ds start w v.
Proof. exact @gen_means. Qed.
Print Assumptions C107_means.

(** Without a cycle of unit productions it ends on every input, with that value or, if there is none, with an error. *)
Theorem C107_decides : forall text order, iterates order -> forall dbg (V : Type) (code : string -> list (gtok V) -> (string -> option (bound (gtok V))) -> V) ts ds b es rs rs',
  reads text order dbg ts (Val (inl b)) -> file_toks ts ds -> Permutation es (dump_grammar text b) -> dump_reductor text b = Val rs -> Permutation rs' rs ->
  sane text ds -> respects code -> forall start eof g k t, grammar_new dbg start (grammar_map es) eof = Val g -> makes k dbg g t -> k <> LALR \/ carries t ->
  ~ In eof (rule_names text ds) -> start_fresh (grammar_map es) start -> conflicts (t_actions t) = [] -> no_unit_cycle (grammar_map es) ->
  forall w, Forall (fun x => ~ In (tk_ty x) (rule_names text ds)) w ->
  (exists v, parses t (map sent w) (gen_maps code rs') (POk (Val v)) /\ means_file text code ds start w v) \/
  ((exists e, parses t (map sent w) (gen_maps code rs') (PErr e)) /\ forall v, ~ means_file text code ds start w v).
Proof. exact @gen_decides. Qed.
Print Assumptions C107_decides.

(** sums: [E: T = E:l ("+" | Minus):op N:r X?:x -> { bin }% | N:n -> { num }%], on 7 - 2 X + 4 and on 7 - X *)
Example C107_example : forall dbg, reads (slice sums_src) keep dbg (toks sums_src) (Val (inl (built_from dbg sums_src))) /\ file_toks (toks sums_src) (decls_of sums_src) /\
  dump_reductor (slice sums_src) (built_from dbg sums_src) = Val (reductors_of dbg sums_src) /\ sums_rules = grammar_map (dump_grammar (slice sums_src) (built_from dbg sums_src)) /\
  sane (slice sums_src) (decls_of sums_src) /\ respects sums_code /\ grammar_new dbg "EntryPoint" sums_rules "Eof" = Val (sums_gr dbg) /\
  (~ In "Eof" (rule_names (slice sums_src) (decls_of sums_src)) /\ start_fresh sums_rules "EntryPoint" /\ no_unit_cycle sums_rules) /\
  Forall (fun x => ~ In (tk_ty x) (rule_names (slice sums_src) (decls_of sums_src))) (sums_in ++ sums_wrong) /\
  means_file (slice sums_src) sums_code (decls_of sums_src) "EntryPoint" sums_in (14, (0, 10)) /\
  forall k, makes k dbg (sums_gr dbg) (sums_t k dbg) /\ (k <> LALR \/ carries (sums_t k dbg)) /\ conflicts (t_actions (sums_t k dbg)) = [] /\
    parses (sums_t k dbg) (map sent sums_in) (gen_maps sums_code (reductors_of dbg sums_src)) (POk (Val (14, (0, 10)))) /\
    exists e, parses (sums_t k dbg) (map sent sums_wrong) (gen_maps sums_code (reductors_of dbg sums_src)) (PErr e).
Proof.
  intros dbg. destruct (sums_all dbg) as (H1 & H2 & H3 & H4). repeat (split; [assumption || apply sums_sane || apply sums_respects || apply sums_gr_eq || apply sums_rest || apply sums_terms || apply sums_means|]).
  intros k. split; [apply sums_t_makes|]. split; [apply sums_t_carries|]. split; [apply sums_t_clean|]. split; [apply sums_parse|apply sums_rejects].
Qed.
