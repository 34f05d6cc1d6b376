(** wop made from its own grammar file is wop. *)
From Coq Require Import List Bool Arith Lia String Permutation.
From Verif Require Import BTree Model Strings Base Mono SpecP Wop WopSpec WopP WopLex WopLexSpec WopLexP WopText WopGen WopEx WopDump WopExport WopBoot WopWide WopOrderSpec WopOrderR WopSelf.
Import ListNotations.
Local Open Scope string_scope.
Local Open Scope list_scope.
Local Open Scope nat_scope.

(** ** what wop writes for its own grammar file *)
Definition own_built (dbg : bool) : builder := match from_str one keep dbg 3000 source with Val (inl b) => b | _ => builder_new end.
Definition block (k : nat) : string := nth k (map fst own_blocks) "".
Definition one_b (n : string) (i : nat) : binding := mkBind n None i None true.
Definition some_b (n : string) (i : nat) : binding := mkBind n (Some true) i None true.
Definition none_b (n : string) (i : nat) : binding := mkBind n (Some false) i None true.
Definition miss_b (n : string) : binding := mkBind n (Some false) 0 None false.
Definition slice_b : binding := mkBind "p" None 0 (Some 1) true.
Definition own_items (x : binding) (k c : nat) : list (list binding * string) :=
  [([x; some_b "opt" k; some_b "cl" (k + 2); some_b "id" (k + 3)], block c); ([x; some_b "opt" k; some_b "cl" (k + 2); some_b "id" (k + 2)], block c); ([x; some_b "opt" k; miss_b "cl"; miss_b "id"], block c);
   ([x; none_b "opt" k; some_b "cl" (k + 1); some_b "id" (k + 2)], block c); ([x; none_b "opt" k; some_b "cl" (k + 1); some_b "id" (k + 1)], block c); ([x; none_b "opt" k; miss_b "cl"; miss_b "id"], block c)].
Definition own_written : list (string * list (list binding * string)) :=
  [("Alias", [([], block 13); ([], block 13)]);
   ("EntryPoint", [([one_b "p" 0], block 0)]);
   ("IdentPath", [([one_b "ip" 0; one_b "ext" 2], block 3); ([], block 4)]);
   ("Import", [([], block 12); ([], block 12)]);
   ("Program", [([some_b "ext" 1], block 1); ([some_b "ext" 1], block 1); ([some_b "ext" 1], block 1); ([slice_b], block 2); ([slice_b], block 2); ([slice_b], block 2)]);
   ("Rule", [([some_b "cb" 3], block 6); ([none_b "cb" 3], block 6); ([some_b "cb" 1], block 7); ([none_b "cb" 1], block 7)]);
   ("RuleDecl", [([], block 5)]);
   ("RuleItem", own_items (some_b "item" 0) 1 10 ++ own_items (some_b "item" 0) 1 10 ++ own_items (one_b "rule" 1) 3 11);
   ("RulePipe", [([one_b "item" 1], block 8); ([], block 9)])].
Lemma own_tokens' : tokenize one source = source_tokens.
Proof. vm_compute. reflexivity. Qed.
Lemma own_reads dbg : reads (slice source) keep dbg (toks source) (Val (inl (own_built dbg))).
Proof.
  assert (H : forall d, match from_str one keep d 3000 source with Val (inl _) => true | _ => false end = true) by (intros []; vm_compute; reflexivity). specialize (H dbg). unfold own_built.
  destruct (from_str one keep dbg 3000 source) as [[b|e]|p|] eqn:E; try discriminate. apply (reads_run _ _ _ 3000); [exact E|discriminate].
Qed.
Lemma own_reductors dbg : dump_reductor (slice source) (own_built dbg) = Val own_written.
Proof. destruct dbg; vm_compute; reflexivity. Qed.
Lemma own_grammar dbg : grammar_map (own_rules (dump_grammar (slice source) (own_built dbg))) = grammar_map wop_rules.
Proof. destruct dbg; vm_compute; reflexivity. Qed.
Lemma own_names dbg : map fst (dump_grammar (slice source) (own_built dbg)) = map fst own_written.
Proof. destruct dbg; vm_compute; reflexivity. Qed.
Lemma own_names_nodup : NoDup (map as_sym (map fst own_written)).
Proof. change (NoDup [Alias; EntryPoint; IdentPath; Import; Program; Rule; RuleDecl; RuleItem; RulePipe]). repeat constructor; cbn; intuition discriminate. Qed.
Lemma own_no_toks n fs f : In (n, fs) own_written -> In f fs -> ~ In "toks" (map bd_name (fst f)).
Proof.
  assert (H : forallb (fun e => forallb (fun f => negb (existsb (String.eqb "toks") (map bd_name (fst f)))) (snd e)) own_written = true) by (vm_compute; reflexivity).
  rewrite forallb_forall in H. intros Hi Hf Ht. apply H in Hi. cbn [snd] in Hi. rewrite forallb_forall in Hi. apply Hi in Hf. apply negb_true_iff in Hf.
  assert (existsb (String.eqb "toks") (map bd_name (fst f)) = true) by (apply existsb_exists; exists "toks"; split; [exact Ht|reflexivity]). congruence.
Qed.

(** ** the code blocks *)
Lemma own_code_respects c toks e e' : (forall n, e n = e' n) -> own_code c toks e = own_code c toks e'.
Proof.
  intros H. unfold own_code. destruct (find _ own_blocks) as [[t f]|] eqn:E; [|reflexivity]. apply find_some in E as [E _]. cbn [snd].
  assert (H1 : forall n, get_one e n = get_one e' n) by (intros n; unfold get_one; now rewrite H).
  assert (H2 : forall n, get_opt e n = get_opt e' n) by (intros n; unfold get_opt; now rewrite H).
  assert (H3 : forall n, get_slice e n = get_slice e' n) by (intros n; unfold get_slice; now rewrite H).
  cbn [own_blocks In] in E. repeat (destruct E as [E|E]; [injection E as <- <-|]); [..|destruct E];
    unfold block_entry, block_program, block_first, block_path, block_ident, block_decl, block_rule, block_alt, block_pipe, block_item, block_symbol, block_group, block_import, block_alias; rewrite ?H1, ?H2, ?H3; try reflexivity.
Qed.
Definition fn_own (f : list binding * string) (r : list gramem -> res meta) : Prop := forall its, own_reductor f its = lift r its.
Lemma fn_own_by f inner : (forall toks, (do env <- run_all toks (fst f); own_code (snd f) toks (in_scope env)) = inner toks) -> fn_own f (fun toks => metaM (inner toks) toks).
Proof. intros H its. unfold own_reductor, lift. destruct (mapM unwrap_tok its) as [toks|p|]; [|reflexivity..]. cbn [bind]. now rewrite H. Qed.
Lemma own_code_at k x : nth_error own_blocks k = Some x -> forall toks e, own_code (block k) toks e = snd x toks e.
Proof. intros H toks e. do 14 (destruct k as [|k]; [injection H as <-; reflexivity|]). destruct k; discriminate. Qed.
Ltac own_fn k := apply fn_own_by; intros toks; cbn [fst snd]; destruct toks as [|t0 [|t1 [|t2 [|t3 [|t4 [|t5 [|t6 rest]]]]]]];
  cbn [run_all run_binding one_b some_b none_b miss_b slice_b bd_optional bd_index bd_final bd_name fetch nth_error expect bind Nat.leb andb List.length firstn skipn Nat.sub tok_opt tok_at Nat.add];
  try reflexivity; rewrite ?(own_code_at k _ eq_refl); try reflexivity.
(** the reductors of out.rs, rules in the order of their names *)
Definition out_fns : list (sym * list (list gramem -> res meta)) :=
  [(Alias, [red_alias; red_alias]); (EntryPoint, [red_entry]); (IdentPath, [red_path0; red_path1]); (Import, [red_import; red_import]);
   (Program, [red_prog0; red_prog0; red_prog0; red_prog3; red_prog3; red_prog3]);
   (Rule, [red_rule01 (Some 3); red_rule01 None; red_rule23 (Some 1); red_rule23 None]); (RuleDecl, [red_decl]);
   (RuleItem, [red_item 0 (Some 1) (Some 3) (Some 4); red_item 0 (Some 1) (Some 3) (Some 3); red_item 0 (Some 1) None None;
       red_item 0 None (Some 2) (Some 3); red_item 0 None (Some 2) (Some 2); red_item 0 None None None;
       red_item 0 (Some 1) (Some 3) (Some 4); red_item 0 (Some 1) (Some 3) (Some 3); red_item 0 (Some 1) None None;
       red_item 0 None (Some 2) (Some 3); red_item 0 None (Some 2) (Some 2); red_item 0 None None None;
       red_item 1 (Some 3) (Some 5) (Some 6); red_item 1 (Some 3) (Some 5) (Some 5); red_item 1 (Some 3) None None;
       red_item 1 None (Some 4) (Some 5); red_item 1 None (Some 4) (Some 4); red_item 1 None None None]);
   (RulePipe, [red_pipe0; red_pipe1])].
Lemma own_functions : Forall2 (fun e e' => as_sym (fst e) = fst e' /\ Forall2 fn_own (snd e) (snd e')) own_written out_fns.
Proof.
  unfold own_written, own_items, out_fns. cbn [app]. repeat (apply Forall2_cons; [split; [reflexivity|cbn [fst snd]; repeat (apply Forall2_cons; [|]); try apply Forall2_nil]|]); try apply Forall2_nil.
  1, 2: own_fn 13.
  1: own_fn 0.
  1: own_fn 3.
  1: own_fn 4.
  1, 2: own_fn 12.
  1, 2, 3: own_fn 1.
  1, 2, 3: own_fn 2.
  1, 2: own_fn 6.
  1, 2: own_fn 7.
  1: own_fn 5.
  1, 2, 3, 4, 5, 6, 7, 8, 9, 10, 11, 12: own_fn 10.
  1, 2, 3, 4, 5, 6: own_fn 11.
  1: own_fn 8.
  1: own_fn 9.
Qed.

(** ** the parser *)
Lemma own_reductor_same f f' its : same_function f f' -> ~ In "toks" (map bd_name (fst f)) -> own_reductor f its = own_reductor f' its.
Proof.
  intros Hf Hn. unfold own_reductor, lift. destruct (mapM unwrap_tok its) as [toks|p|]; [|reflexivity..]. cbn [bind]. unfold metaM.
  destruct (same_scope toks f f' Hf Hn) as [(env & env' & -> & -> & He)|[-> ->]]; [|reflexivity]. cbn [bind]. rewrite (proj1 Hf). now rewrite (own_code_respects _ _ _ _ He).
Qed.
Lemma maps_of_lists {T M} {OT : Ord T} (L L' : list (T * list (list (token T M) -> M))) : NoDup (map fst L) ->
  Forall2 (fun e e' => fst e = fst e' /\ Forall2 fn_same (snd e) (snd e')) L L' -> maps_same (bm_of_list L) (bm_of_list L').
Proof.
  intros NL FL k. assert (NL' : NoDup (map fst L')). { replace (map fst L') with (map fst L); [exact NL|]. clear NL. induction FL as [|e e' L L' [H _] FL IH]; [reflexivity|]. cbn [map]. now rewrite H, IH. }
  change (match bm_get k (bm_of_list L), bm_get k (bm_of_list L') with Some fs, Some fs' => Forall2 fn_same fs fs' | None, None => True | _, _ => False end).
  destruct (bm_get k (bm_of_list L)) as [fs|] eqn:E.
  - apply (of_list_get _ _ _ NL) in E. destruct (Forall2_in_l_ex _ _ _ _ FL E) as ([k' fs'] & Hi & Ek & Ff). cbn [fst snd] in *. subst k'. apply (of_list_get _ _ _ NL') in Hi. rewrite Hi. exact Ff.
  - destruct (bm_get k (bm_of_list L')) as [fs'|] eqn:E'; [|exact Logic.I]. apply (of_list_get _ _ _ NL') in E'. destruct (Forall2_in_r_ex _ _ _ _ FL E') as ([k' fs] & Hi & Ek & Ff). cbn [fst snd] in *. subst k'. apply (of_list_get _ _ _ NL) in Hi. congruence.
Qed.
Lemma Forall2_trans {A B C} (R : A -> B -> Prop) (Q : B -> C -> Prop) (P : A -> C -> Prop) l m n : (forall a b c, In b m -> R a b -> Q b c -> P a c) -> Forall2 R l m -> Forall2 Q m n -> Forall2 P l n.
Proof.
  intros H F. revert n H. induction F as [|a b l m Hab F IH]; intros n H G; inversion G as [|? c ? n' Hbc G']; subst; constructor; [eapply H; eauto; now left|]. apply IH; auto. intros x y z Hy. apply H. now right.
Qed.
Lemma Forall2_swap {A B} (R : A -> B -> Prop) l m : Forall2 R l m -> Forall2 (fun b a => R a b) m l.
Proof. induction 1; constructor; auto. Qed.
Lemma wop_maps_sorted : wop_maps = bm_of_list (map (fun e => (fst e, map lift (snd e))) out_fns).
Proof. reflexivity. Qed.
(** [rs] is like what is written in one order *)
Definition like_own (rs : list (string * list (list binding * string))) : Prop := Forall2 (fun e e' => fst e = fst e' /\ Forall2 same_function (snd e) (snd e')) own_written rs.
Lemma like_names rs : like_own rs -> map fst rs = map fst own_written.
Proof. intros F. unfold like_own in F. revert F. generalize own_written as l. intros l F. induction F as [|e e' l l' [H _] F IH]; [reflexivity|]. cbn [map]. now rewrite H, IH. Qed.
Lemma own_maps_same rs qs : like_own rs -> Permutation qs rs -> maps_same (own_maps qs) wop_maps.
Proof.
  intros F P. unfold own_maps. rewrite (of_list_perm _ (map (fun e => (as_sym (fst e), map own_reductor (snd e))) rs)).
  2: { rewrite map_map. cbn [fst]. rewrite <- (map_map fst as_sym). eapply Permutation_NoDup; [apply Permutation_map, Permutation_map, Permutation_sym, P|]. rewrite (like_names _ F). apply own_names_nodup. }
  2: now apply Permutation_map.
  rewrite wop_maps_sorted. apply maps_of_lists.
  { rewrite map_map. cbn [fst]. rewrite <- (map_map fst as_sym), (like_names _ F). apply own_names_nodup. }
  apply Forall2_map_l, Forall2_map_r. cbn [fst snd]. eapply (Forall2_trans (fun e' e => fst e = fst e' /\ Forall2 same_function (snd e) (snd e'))); [|apply Forall2_swap; exact F|exact own_functions].
  intros e' e r Hi [H1 H2] [H3 H4]. split; [congruence|]. apply Forall2_map_l, Forall2_map_r. eapply (Forall2_trans (fun f' f => same_function f f')); [|apply Forall2_swap; exact H2|exact H4].
  intros f' f g Hf K1 K2 its. rewrite <- (own_reductor_same f f' its K1); [apply K2|]. apply (own_no_toks (fst e) (snd e)); [now destruct e|exact Hf].
Qed.
Lemma from_tokens_maps rules maps text order dbg fuel input : grammar_map rules = grammar_map wop_rules -> maps_same maps wop_maps ->
  from_tokens_of rules maps text order dbg fuel input = from_tokens text order dbg fuel input.
Proof.
  intros Eg Em. unfold from_tokens_of, from_tokens, wop_grammar. rewrite Eg. destruct (grammar_new _ _ _ _) as [g|p|]; [|reflexivity..]. cbn [bind]. destruct (slr_new _ _ _) as [t|p|]; [|reflexivity..]. cbn [bind].
  unfold parser_dfa. destruct (expect _ _) as [eof|p|]; [|reflexivity..]. cbn [bind]. change (dfa_new input (t_actions t) wop_maps eof) with (with_red wop_maps (dfa_new input (t_actions t) maps eof)).
  rewrite (start_ext maps wop_maps Em) by reflexivity. destruct (dfa_start fuel _) as [[d o]|p|]; reflexivity.
Qed.
Lemma toks_eq src : toks src = tokenize one src.
Proof. reflexivity. Qed.
Theorem own_wop lg order dbg : beyond_ascii lg -> iterates order -> exists b rs, reads (slice source) order dbg (tokenize lg source) (Val (inl b)) /\ dump_reductor (slice source) b = Val rs /\
  forall es qs, Permutation es (dump_grammar (slice source) b) -> Permutation qs rs -> grammar_map (own_rules es) = grammar_map wop_rules /\
  (forall fuel t input, parser_parse fuel t input (own_maps qs) = parser_parse fuel t input wop_maps) /\
  forall text' order' dbg' fuel input, from_tokens_of (own_rules es) (own_maps qs) text' order' dbg' fuel input = from_tokens text' order' dbg' fuel input.
Proof.
  intros Hl Ho. pose proof (own_reads dbg) as H0. pose proof (own_reductors dbg) as H1. pose proof (own_grammar dbg) as H2. pose proof (own_names dbg) as H3. revert H0 H1 H2 H3. generalize (own_built dbg) as b0. intros b0 H0 H1 H2 H3. rewrite toks_eq in H0.
  pose proof (from_str_same one keep order dbg source (Val (inl b0)) keep_iterates Ho H0) as X. cbv beta iota in X. destruct X as (b & Hb & _ & _ & Eg & rs1 & rs & E1 & E2 & F). rewrite H1 in E1. injection E1 as <-.
  exists b, rs. split. { rewrite tokenize_same; [exact Hb|exact Hl|vm_compute; reflexivity|]. rewrite own_tokens'. vm_compute. intuition discriminate. }
  split; [exact E2|]. intros es qs Pe Pq.
  assert (Er : grammar_map (own_rules es) = grammar_map wop_rules).
  { rewrite <- H2, !grammar_map_of_list. rewrite <- Eg in Pe. apply of_list_perm; [|unfold own_rules; now apply Permutation_map, Permutation_map].
    rewrite map_map. cbn [fst]. unfold own_rules. rewrite map_map. cbn [fst]. rewrite <- (map_map fst as_sym). eapply Permutation_NoDup; [apply Permutation_map, Permutation_map, Permutation_sym, Pe|]. rewrite H3. apply own_names_nodup. }
  pose proof (own_maps_same rs qs F Pq) as Em. split; [exact Er|]. split.
  - intros fuel t input. symmetry. now apply parse_ext.
  - intros. now apply from_tokens_maps.
Qed.
