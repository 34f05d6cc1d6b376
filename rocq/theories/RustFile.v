(** The whole of out.rs. *)
From Coq Require Import List Bool Arith Lia Ascii String Permutation.
From Verif Require Import BTree Model Strings Base Spec Wop WopSpec WopFront WopP WopProc WopDump WopExport WopLex WopLexSpec WopText WopTextSpec WopTextP WopRead WopMain WopRun WopSum RustSpec RustP RustItems RustRun.
Import ListNotations.
Local Open Scope string_scope.
Local Open Scope list_scope.
Local Open Scope nat_scope.

Lemma prepend_prepend a b x : prepend a (prepend b x) = prepend (a ++ b) x.
Proof. destruct x as [[]|]; cbn; [now rewrite sassoc|reflexivity]. Qed.
Lemma balanced_free s : free curly s = true -> balanced s.
Proof. intros H. unfold balanced. rewrite closing_free by exact H. cbn. now rewrite sapp_nil. Qed.
Lemma balanced_app a b : balanced a -> balanced b -> balanced (a ++ b).
Proof. intros Ha Hb. unfold balanced. rewrite sassoc, (closing_balanced a) by exact Ha. unfold balanced in Hb. now rewrite Hb. Qed.
Lemma balanced_block s : balanced s -> balanced ("{" ++ s ++ "}").
Proof.
  intros H. unfold balanced. change (("{" ++ s ++ "}") ++ "}")%string with (String "{" ((s ++ "}") ++ "}")). cbn [closing Ascii.eqb Bool.eqb]. rewrite sassoc, (closing_balanced s) by exact H. reflexivity.
Qed.
Lemma balanced_concat l : Forall balanced l -> balanced (String.concat "" l).
Proof. induction 1 as [|a l H _ IH]; [reflexivity|]. rewrite sconcat_cons. now apply balanced_app. Qed.
Ltac bal := repeat match goal with |- balanced ("{" ++ _ ++ "}") => apply balanced_block | |- balanced (_ ++ _) => apply balanced_app end; try (apply balanced_free; reflexivity).
Lemma write_balanced (f : string) : balanced f -> forall s, s = f -> balanced s.
Proof. now intros H s ->. Qed.

Lemma tops_more n : forall m s x, n <= m -> read_tops n s = Some x -> read_tops m s = Some x.
Proof.
  induction n as [|n IH]; intros m s x H E; destruct m as [|m]; try lia; auto.
  - cbn [read_tops] in *. destruct (trim s); [exact E|discriminate].
  - cbn [read_tops] in *. destruct (trim s) as [|c s']; [exact E|]. destruct (read_top (String c s')) as [[t r]|]; [|exact E]. destruct (read_tops n r) as [l|] eqn:El; [|discriminate]. now rewrite (IH m r l) by (auto; lia).
Qed.
Lemma tops_step n s c s' t r l : trim s = String c s' -> read_top (String c s') = Some (t, r) -> read_tops n r = Some l -> read_tops (S n) s = Some (t :: l).
Proof. intros E1 E2 E3. cbn [read_tops]. now rewrite E1, E2, E3. Qed.
Lemma top_fn name sig r body r' : free ["("%char] name = true -> free ["{"%char] sig = true -> closing 0 r = Some (body, r') -> read_top ("pub fn " ++ name ++ "(" ++ sig ++ "{" ++ r) = Some (TFn name sig body, r').
Proof.
  intros Hn Hs Hr. unfold read_top. change (after "use " ("pub fn " ++ name ++ "(" ++ sig ++ "{" ++ r)) with (@None string). change (after "#[" ("pub fn " ++ name ++ "(" ++ sig ++ "{" ++ r)) with (@None string).
  rewrite after_app. change ("(" ++ sig ++ "{" ++ r)%string with (String "(" (sig ++ String "{" r)). rewrite up_to_free by (auto; reflexivity). rewrite up_to_free by (auto; reflexivity). now rewrite Hr.
Qed.

Section T.
Variable text : span -> string.

Lemma use_balanced b : Forall (fun i => free (";"%char :: curly) (text i) = true) (b_imports b) -> balanced (use_lines text b).
Proof.
  intros H. apply balanced_concat. apply Forall_map. eapply Forall_impl; [|exact H]. intros i Hi. cbn beta in Hi. apply (free_sub _ curly) in Hi; [|reflexivity]. bal. now apply balanced_free.
Qed.
Lemma rule_balanced name prods : free curly name = true -> Forall (fun p => Forall (fun s => free curly (text s) = true) (pb_production p)) prods -> balanced (write_rule text name prods).
Proof.
  intros Hn Hp. unfold write_rule. bal; try (now apply balanced_free). apply balanced_concat, Forall_map. eapply Forall_impl; [|exact Hp]. intros p H. unfold write_prod. bal.
  apply balanced_concat, Forall_map. eapply Forall_impl; [|exact H]. intros s Hs. cbn beta in Hs. bal. now apply balanced_free.
Qed.
Lemma reductor_balanced entry name ty i p s : write_reductor text entry name ty i p = Val s -> free curly name = true -> free curly entry = true -> free curly ty = true -> clean_prod text p -> balanced s.
Proof.
  intros E Hn He Ht Hp. unfold write_reductor in E. destruct (code_body (text (pb_codeblock p))) as [c| |] eqn:Ec; try discriminate. cbn [bind] in E. apply Val_inj in E as <-.
  eapply write_balanced with (f := (tab ++ "fn " ++ fn_name name i ++ "(toks: &[" ++ entry ++ "]) -> lrp::Meta<" ++ ty ++ "> " ++ ("{" ++ (nl ++ tab ++ tab ++ "lrp::Meta::new(" ++ ("{" ++ (" " ++ stm_of text p ++ " " ++ c) ++ "}") ++
    ", lrp::Span::new(toks[0].item.span.start, toks.last().unwrap().item.span.end))" ++ nl ++ tab) ++ "}") ++ nl)%string).
  - assert (Hf : free curly (fn_name name i) = true) by (unfold fn_name; rewrite !free_app, Hn, digits_free by reflexivity; reflexivity).
    bal; try (now apply balanced_free); [apply balanced_free; now apply stm_free|now apply Hp].
  - unfold stm_of. rewrite map_map, !sassoc. reflexivity.
Qed.
Lemma reductors_balanced entry e s : write_rule_reduction text entry (fst e) (snd e) = Val s -> free curly entry = true -> clean_rule text e -> balanced s.
Proof.
  intros E He [Hn Hp]. destruct e as [name prods]. cbn [fst snd] in *. apply (free_sub _ curly) in Hn; [|reflexivity]. unfold write_rule_reduction in E.
  destruct prods as [|p0 prods]; [discriminate|]. cbn [expect nth_error bind] in E. destruct (mapM _ (enum 0 (p0 :: prods))) as [fs| |] eqn:Ef; try discriminate. cbn [bind] in E. apply Val_inj in E as <-.
  assert (Ht : free curly (text (pb_ty p0)) = true) by (inversion Hp as [|? ? [_ [H _]] ?]; exact H).
  bal; try (now apply balanced_free).
  - apply balanced_concat. apply mapM_val in Ef. apply Forall_forall. intros f Hf. destruct (Forall2_in_r_ex _ _ _ _ Ef Hf) as (x & Hx & Ex).
    eapply reductor_balanced; eauto. rewrite Forall_forall in Hp. apply Hp. eapply RustItems.enum_in; exact Hx.
  - apply balanced_concat, Forall_map, Forall_forall. intros x _. bal. apply balanced_free. unfold fn_name. rewrite !free_app, Hn, digits_free by reflexivity. reflexivity.
Qed.
Lemma dump_balanced entry b rules s : dump_reductor_text text entry b rules = Val s -> free curly entry = true -> Forall (clean_rule text) rules -> Forall (fun i => free (";"%char :: curly) (text i) = true) (b_imports b) ->
  exists m, s = ("{" ++ m ++ "}")%string /\ balanced m.
Proof.
  intros E He Hr Hi. unfold dump_reductor_text in E. destruct (String.eqb entry ""); [discriminate|]. destruct (mapM _ rules) as [rs| |] eqn:Er; try discriminate. cbn [bind] in E. apply Val_inj in E as <-.
  exists (nl ++ use_lines text b ++ tab ++ "let mut map = lrp::ReductMap::new();" ++ nl ++ nl ++ String.concat "" rs ++ tab ++ "map" ++ nl)%string. split; [now rewrite !sassoc|].
  bal; [now apply use_balanced|]. apply balanced_concat. apply mapM_val in Er. apply Forall_forall. intros f Hf. destruct (Forall2_in_r_ex _ _ _ _ Er Hf) as (x & Hx & Ex).
  eapply reductors_balanced; eauto. rewrite Forall_forall in Hr. auto.
Qed.
Lemma grammar_balanced b rules : Forall (fun e => free curly (fst e) = true /\ Forall (fun p => Forall (fun s => free curly (text s) = true) (pb_production p)) (snd e)) rules ->
  Forall (fun i => free (";"%char :: curly) (text i) = true) (b_imports b) -> exists m, dump_grammar_text text b rules = ("{" ++ m ++ "}")%string /\ balanced m.
Proof.
  intros Hr Hi. exists (nl ++ use_lines text b ++ tab ++ "let mut map = lrp::RuleMap::new();" ++ nl ++ String.concat "" (map (fun e => write_rule text (fst e) (snd e)) rules) ++ nl ++ tab ++ "map" ++ nl)%string.
  split; [unfold dump_grammar_text; now rewrite !sassoc|]. bal; [now apply use_balanced|]. apply balanced_concat, Forall_map. eapply Forall_impl; [|exact Hr]. intros e [H1 H2]. now apply rule_balanced.
Qed.

Lemma read_out g m : balanced g -> balanced m -> let body := (nl ++ "    Grammar::new(Sym::EntryPoint, " ++ ("{" ++ g ++ "}") ++ ", Sym::Eof)" ++ nl)%string in
  read_source (nl ++ "use crate::{Ast, Gramem, Meta, Sym};" ++ nl ++ "use lrp::{Grammar, ReductMap, Span};" ++ nl ++ nl ++
       "#[allow(" ++ grammar_lints ++ ")]" ++ nl ++ "#[must_use]" ++ nl ++ "pub fn grammar() -> Grammar<Sym> {" ++ nl ++
       "    Grammar::new(Sym::EntryPoint, " ++ ("{" ++ g ++ "}") ++ ", Sym::Eof)" ++ nl ++ "}" ++ nl ++
       nl ++ "#[allow(" ++ reductor_lints ++ ")]" ++ nl ++ "pub fn reduct_map() -> ReductMap<Meta<Ast>, Sym> " ++ ("{" ++ m ++ "}") ++ nl) =
    Some [TUse "crate::{Ast, Gramem, Meta, Sym}"; TUse "lrp::{Grammar, ReductMap, Span}"; TAttr ("allow(" ++ grammar_lints ++ ")"); TAttr "must_use"; TFn "grammar" ") -> Grammar<Sym> " body;
          TAttr ("allow(" ++ reductor_lints ++ ")"); TFn "reduct_map" ") -> ReductMap<Meta<Ast>, Sym> " m] /\
  read_grammar body = Some ("Sym::EntryPoint", g, "Sym::Eof").
Proof.
  intros Hg Hm body. split.
  - assert (C1 : forall t, closing 0 (nl ++ "    Grammar::new(Sym::EntryPoint, " ++ ("{" ++ g ++ "}") ++ ", Sym::Eof)" ++ nl ++ "}" ++ t) = Some (body, t)).
    { intros t. assert (B : balanced body) by (unfold body; now bal). pose proof (closing_balanced body 0 ("}" ++ t) B) as C. cbn [closing String.append] in C. cbn [Ascii.eqb Bool.eqb prepend] in C.
      rewrite sapp_nil in C. rewrite <- C. unfold body. rewrite !sassoc. reflexivity. }
    assert (C2 : forall t, closing 0 ((m ++ "}") ++ t) = Some (m, t)).
    { intros t. rewrite sassoc. rewrite (closing_balanced m 0) by exact Hm. cbn. now rewrite sapp_nil. }
    unfold grammar_lints, reductor_lints. eapply tops_more with (n := 7); [match goal with |- context [String.length (nl ++ ?a ++ ?x)] => generalize x end; intros x; cbn; lia|].
    eapply tops_step; [reflexivity|reflexivity|]. eapply tops_step; [reflexivity|reflexivity|]. eapply tops_step; [reflexivity|reflexivity|]. eapply tops_step; [reflexivity|reflexivity|].
    eapply tops_step; [reflexivity|refine (top_fn "grammar" ") -> Grammar<Sym> " _ _ _ eq_refl eq_refl (C1 _))|].
    eapply tops_step; [reflexivity|reflexivity|]. eapply tops_step; [reflexivity|refine (top_fn "reduct_map" ") -> ReductMap<Meta<Ast>, Sym> " _ _ _ eq_refl eq_refl (C2 _))|]. reflexivity.
  - unfold body, read_grammar. 
    match goal with |- context [trim ?x] => change (trim x) with ("Grammar::new(" ++ "Sym::EntryPoint" ++ String "," (" {" ++ (g ++ "}") ++ ", Sym::Eof)" ++ nl))%string end.
    rewrite after_app, up_to_free by reflexivity. rewrite after_app, sassoc. rewrite (closing_balanced g) by exact Hg. cbn. now rewrite sapp_nil.
Qed.

Variable order : prod_build -> list prod_build -> list span -> list span.
Hypothesis Ho : iterates order.
Variable dbg : bool.

Lemma plain_builds ts ds b : reads text order dbg ts (Val (inl b)) -> file_toks ts ds -> clean_file text ds -> plain_file text ds ->
  plain_builder text b /\ Forall (fun e => free curly (fst e) = true /\ Forall (fun p => Forall (fun s => free curly (text s) = true) (pb_production p)) (snd e)) (b_rules b).
Proof.
  intros Hr Hf [_ Hc] [Hu Hp]. destruct (reads_file text order dbg Ho ts ds b Hr Hf) as (Hv & (Hi & _ & Hn & Hrec) & Hs).
  assert (H : forall name prods, In (name, prods) (b_rules b) -> free special name = true /\ forall p s, In p prods -> In s (pb_production p) -> free (newline :: ","%char :: " "%char :: "]"%char :: curly) (text s) = true).
  { intros name prods Hin. apply (bm_in_get _ _ _ Hs) in Hin. assert (Hnm : In name (rule_names text ds)) by (apply Hn; eauto). unfold rule_names in Hnm. apply in_flat_map in Hnm as ([nm ty alts|u|tk al] & Hd & Hnm); try easy. destruct Hnm as [<-|[]].
    destruct (Hc _ _ _ Hd) as (H1 & _). split; [exact H1|]. apply in_split in Hd as (ds1 & ds2 & E). destruct (Hrec _ _ _ _ _ E) as (prods' & Hg & Hbu & _). rewrite Hin in Hg. injection Hg as <-.
    intros p s Hpr Hsy. apply In_nth_error in Hpr as (i & Hpr). destruct (Forall2_nth _ _ _ _ _ Hbu Hpr) as ([alt w] & Hi' & Ew & _). cbn [snd] in Ew. rewrite Ew in Hsy. apply in_map_iff in Hsy as (s' & <- & Hs').
    apply nth_error_In, in_flat_map in Hi' as (a & Ha & Hi'). apply in_map_iff in Hi' as (w' & [= -> ->] & Hw). eapply Hp; eauto. }
  split; [split|].
  - intros i Hin. rewrite Hi in Hin. unfold imports in Hin. apply in_flat_map in Hin as ([nm ty alts|u|tk al] & Hd & Hin); try easy. destruct Hin as [<-|[]]. apply Hu in Hd. revert Hd. generalize (text u). clear.
    induction s as [|c s IH]; [easy|]. unfold free in *. cbn [all_chars existsb flat_line]. rewrite orb_false_r. intros K. apply andb_prop in K as [K1 K2]. rewrite K1. auto.
  - intros name prods Hin. destruct (H _ _ Hin) as [H1 H2]. split; [now apply free_plain|]. intros p s Hpr Hsy. specialize (H2 _ _ Hpr Hsy). revert H2. generalize (text s). clear.
    induction s as [|c s IH]; [easy|]. unfold free in *. cbn [all_chars existsb plain_name]. rewrite !negb_orb, !andb_true_iff. intuition.
  - apply Forall_forall. intros [name prods] Hin. destruct (H _ _ Hin) as [H1 H2]. cbn [fst snd]. split; [now apply (free_sub special)|]. apply Forall_forall. intros p Hpr. apply Forall_forall. intros s Hsy.
    eapply free_sub; [|now apply (H2 p)]. reflexivity.
Qed.

Theorem out_text ts ds b rules s : reads text order dbg ts (Val (inl b)) -> file_toks ts ds -> clean_file text ds -> plain_file text ds -> Permutation rules (b_rules b) -> write_out text b rules = Val s -> out_of text ds s.
Proof.
  intros Hr Hf Hc Hp Pr Hw. unfold write_out in Hw. destruct (dump_reductor_text text "Gramem" b rules) as [rs| |] eqn:Ed; try discriminate. cbn [bind] in Hw. apply Val_inj in Hw as <-.
  destruct (clean_rules text order Ho dbg ts ds b Hr Hf Hc) as [Hcr Hci]. destruct (plain_builds ts ds b Hr Hf Hc Hp) as [Hpb Hpc].
  destruct (dump_balanced "Gramem" b rules rs Ed eq_refl) as (m & -> & Bm); [eapply Permutation_Forall; [apply Permutation_sym; exact Pr|exact Hcr]|exact Hci|].
  destruct (grammar_balanced b rules) as (g & Eg & Bg); [eapply Permutation_Forall; [apply Permutation_sym; exact Pr|exact Hpc]|exact Hci|]. pose proof (read_dump text b rules Hpb Pr) as Hrd. rewrite Eg in *.
  assert (Pe : Permutation (map (fun e => (fst e, dump_rule text (snd e))) rules) (dump_grammar text b)) by (apply Permutation_map; exact Pr).
  destruct (read_out g m Bg Bm) as [R1 R2].
  destruct (reductor_items text order Ho dbg ts ds b _ rules "Gramem" _ Hr Hf Hc eq_refl Pe Pr Ed "") as (items & Hi & Hit). rewrite sapp_nil in Hi.
  unfold out_of. eexists _, _, g, m, _, items. split; [exact R1|]. split; [exact R2|]. rewrite Hrd. split; [exact Hi|]. split; [|exact Hit].
  destruct (sum_expansion text order Ho dbg ts ds b _ Hr Hf Pe) as (W1 & W2 & W3). split; [exact W1|]. split; [exact W2|]. intros ds1 name ty alts ds2 E. exact (proj1 (W3 _ _ _ _ _ E)).
Qed.
End T.

Theorem main_text lg order : iterates order -> forall iter, (forall l, Permutation (iter l) l) -> forall dbg src ds,
  file_toks (tokenize lg src) ds -> valid (slice src) ds -> clean_file (slice src) ds -> plain_file (slice src) ds ->
  exists s, runs_main lg order iter dbg src (Val (Ok, s)) /\ out_of (slice src) ds s.
Proof.
  intros Ho iter Hi dbg src ds Hf Hv Hc Hp. destruct (runs_main_cases lg order Ho iter Hi dbg src) as [(ds' & b & s & Hf' & _ & Hb & Hw & Hm)|[(ds' & Hf' & Hv' & _)|(Hn & _)]].
  - pose proof (file_unique _ _ _ Hf Hf') as <-. exists s. split; [exact Hm|]. eapply out_text; eauto.
  - pose proof (file_unique _ _ _ Hf Hf') as <-. easy.
  - now destruct (Hn ds).
Qed.
