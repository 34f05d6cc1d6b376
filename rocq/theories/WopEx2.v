(** Further grammar files for the examples of Prop_Wop.v. *)
From Coq Require Import List Bool Arith Lia Ascii String Permutation.
From Verif Require Import BTree Model Strings Wop WopSpec WopP WopProc WopDump WopFront Spec Base Mono WopParse WopExport WopRead WopLex WopLexSpec WopLexP WopStr WopText WopTextSpec WopTextP WopMain WopRun WopBoot WopEx.
Import ListNotations.
Local Open Scope string_scope.
Local Open Scope list_scope.
Local Open Scope nat_scope.

Definition hide_src : string := "S: T = A:toks B:y -> { y }% ;".
Definition void_src : string := "S: T = A? -> { x }% ;".
Definition path_src : string := "a::S: T = A -> { x }% ;".
Definition space_src : string := "a :: S: T = A -> { x }% ; a::S: T = B -> { y }% ;".
Definition brace_src : string := "S: T = a -> { {x}}% ; R: T = b -> { y }% ;".
Definition stray_src : string := "S: T = a -> { x }% ; )".
Lemma more_fine : forallb fine [hide_src; void_src; path_src; space_src; brace_src] = true.
Proof. vm_compute. reflexivity. Qed.
Lemma more_fine_each src : In src [hide_src; void_src; path_src; space_src; brace_src] -> fine src = true.
Proof. exact (proj1 (forallb_forall fine _) more_fine src). Qed.
Ltac isfine2 := apply more_fine_each; simpl; tauto.

(** an alias called [toks] *)
Lemma hide_emits dbg : exists alt r bs c, emits (slice hide_src) keep dbg (toks hide_src) alt r bs c /\ good (slice hide_src) (fst alt) /\ List.length (fst r) = 2 /\
  run_all [0; 1] bs = Panic P_unlisted /\
  map binding_text bs = [("let toks = toks[0].clone();" ++ newline)%string; ("let y = toks[1].clone();" ++ newline)%string].
Proof.
  eexists _, _, _, _. split; [apply (emits_at _ _ "S" 0); [isfine2|vm_compute; reflexivity|destruct dbg; vm_compute; reflexivity]|].
  split; [|repeat split; vm_compute; reflexivity]. split.
  - cbn [fst]. repeat (apply Forall_cons; [apply good_sym|]). apply Forall_nil.
  - unfold distinct. cbn [fst]. repeat (apply FOP_cons; [repeat (apply Forall_cons; [|]); try apply Forall_nil; intros n Hn Hn'; vm_compute in Hn; vm_compute in Hn'; intuition (subst; discriminate)|]). apply FOP_nil.
Qed.
(** an empty production *)
Lemma void_emits dbg : exists alt r bs c, emits (slice void_src) keep dbg (toks void_src) alt r bs c /\ good (slice void_src) (fst alt) /\ fst r = [] /\ bs = [] /\
  forall A B (code : list (string * bound A) -> B) (toks : list A), List.length toks = List.length (fst r) -> run_reductor code bs toks = Panic P_index.
Proof.
  eexists _, _, _, _. split; [apply (emits_at _ _ "S" 1); [isfine2|vm_compute; reflexivity|destruct dbg; vm_compute; reflexivity]|].
  split; [|split; [reflexivity|split; [reflexivity|intros A B code [|a l] Hl; [reflexivity|discriminate]]]]. split.
  - cbn [fst]. repeat (apply Forall_cons; [apply good_sym|]). apply Forall_nil.
  - unfold distinct. cbn [fst]. repeat constructor.
Qed.
(** a rule named by a path *)
Lemma path_rules dbg : reads (slice path_src) keep dbg (toks path_src) (Val (inl (built_from dbg path_src))) /\ map fst (b_rules (built_from dbg path_src)) = ["a::S"] /\
  fn_name "a::S" 0 = "lrp_wop_a::S_0" /\ all_chars ident_char (fn_name "a::S" 0) = false.
Proof. split; [apply fine_facts; isfine2|]. split; [destruct dbg; vm_compute; reflexivity|split; reflexivity]. Qed.
(** one path spelled in two ways *)
Lemma space_rules dbg : reads (slice space_src) keep dbg (toks space_src) (Val (inl (built_from dbg space_src))) /\
  map (fun e => (fst e, snd e)) (dump_grammar (slice space_src) (built_from dbg space_src)) = [("a :: S", [["A"]]); ("a::S", [["B"]])].
Proof. split; [apply fine_facts; isfine2|]. destruct dbg; vm_compute; reflexivity. Qed.
(** a code block that does not end where it should *)
Lemma brace_toks : toks brace_src = [(Ident, (0, 1)); (TwoDots, (1, 2)); (Ident, (3, 4)); (Assign, (5, 6)); (Ident, (7, 8)); (CodeBlock, (9, 40)); (Sc, (41, 42))] /\
  slice brace_src (9, 40) = "-> { {x}}% ; R: T = b -> { y }%".
Proof. split; vm_compute; reflexivity. Qed.
Lemma brace_rules dbg : reads (slice brace_src) keep dbg (toks brace_src) (Val (inl (built_from dbg brace_src))) /\ map fst (b_rules (built_from dbg brace_src)) = ["S"].
Proof. split; [apply fine_facts; isfine2|]. destruct dbg; vm_compute; reflexivity. Qed.
(** wop's own grammar file *)
Lemma own_tokens : tokenize one source = source_tokens.
Proof. vm_compute. reflexivity. Qed.

(** ** main *)
Lemma main_rle text order iter dbg n m toks : n <= m -> rle (wop_main text order iter dbg n toks) (wop_main text order iter dbg m toks).
Proof.
  intros L. unfold wop_main. apply rle_bind; [apply rle_refl|]. intros g. apply rle_bind; [now apply slr_new_rle|]. intros t.
  apply rle_bind; [apply rle_refl|]. intros d. apply rle_bind; [now apply start_rle|]. intros [d' o].
  apply rle_bind; [apply rle_refl|]. intros _. apply rle_bind; [apply rle_refl|]. intros it. apply rle_bind; [apply rle_refl|]. intros mm. apply rle_bind; [now apply process_rle|]. intros. apply rle_refl.
Qed.
Definition same (l : list (string * list prod_build)) := l.
Definition run_of (dbg : bool) (src : string) : res (outcome sym * string) :=
  wop_main (slice src) keep same dbg 400 (map (fun t => lexed (fst t) (snd t)) (tokenize one src)).
Lemma run_of_main dbg src r : run_of dbg src = r -> r <> Fuel -> runs_main one keep same dbg src r.
Proof. intros E Hr. exists 400. intros fuel Hf. rewrite <- E. apply main_rle; [exact Hf|]. unfold run_of in E. now rewrite E. Qed.
Definition written (dbg : bool) (src : string) : string := match run_of dbg src with Val (_, s) => s | _ => "" end.
Definition find_text (s t : string) : option (string * string) :=
  match String.index 0 t s with Some n => Some (substring 0 n s, substring (n + String.length t) (String.length s) s) | None => None end.
Definition has_text (s t : string) : bool := match find_text s t with Some (a, b) => String.eqb s (a ++ t ++ b) | None => false end.
Lemma has_contains s t : has_text s t = true -> contains s t.
Proof. unfold has_text. destruct (find_text s t) as [[a b]|]; [|discriminate]. intros H. apply String.eqb_eq in H. exists a, b. exact H. Qed.
Lemma main_writes dbg : runs_main one keep same dbg wrong_src (Val (Err (UnexpectedToken Ident [Assign; PathAccess]), written dbg wrong_src)) /\
  contains (written dbg wrong_src) "map.insert(S, vec![lrp_wop_S_0, ".
Proof.
  split; [apply run_of_main; [destruct dbg; vm_compute; reflexivity|discriminate]|]. apply has_contains. destruct dbg; vm_compute; reflexivity.
Qed.
Lemma main_panics dbg : runs_main one keep same dbg stray_src (Panic P_unlisted) /\ runs_main one keep same dbg "" (Panic P_index) /\
  from_str one keep dbg 400 stray_src = Val (inr (UnexpectedToken CloseParen [AliasWord; UseWord; Ident; Eof])).
Proof. split; [|split]; [apply run_of_main; [destruct dbg; vm_compute; reflexivity|discriminate]..|destruct dbg; vm_compute; reflexivity]. Qed.
Lemma main_ok dbg : runs_main one keep same dbg ok_src (Val (Ok, written dbg ok_src)) /\ contains (written dbg ok_src) "	map.insert(E, lrp::grammar::Rule::new(E, vec![".
Proof. split; [apply run_of_main; [destruct dbg; vm_compute; reflexivity|discriminate]|]. apply has_contains. destruct dbg; vm_compute; reflexivity. Qed.
