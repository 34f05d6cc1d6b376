(** wop's front end: the syntax trees its reductors build are those of the concrete syntax. *)
From Coq Require Import List Bool Arith Lia String Permutation.
From Verif Require Import BTree Model Strings Wop WopSpec WopDump Spec.
Import ListNotations.
Local Open Scope list_scope.

Notation rules := (grammar_map wop_rules).
Definition lex (ts : list lexeme) : list (token sym (res meta)) := map (fun t => lexed (fst t) (snd t)) ts.
Definition wrap (g : gramem) : token sym (res meta) := mkTok (Val (tk_item g)) (tk_ty g).
Definition ev (X : sym) (ts : list lexeme) (g : gramem) : Prop := evals rules wop_maps X (lex ts) (wrap g).
Definition evs (Xs : list sym) (ts : list lexeme) (gs : list gramem) : Prop := evals_seq rules wop_maps Xs (lex ts) (map wrap gs).

Lemma unwrap_wrap gs : mapM unwrap_tok (map wrap gs) = Val gs.
Proof. induction gs as [|[m X] gs IH]; simpl; [reflexivity|]. now rewrite IH. Qed.
Lemma ev_rule A i rhs ts gs fs f m : prod_at rules A i rhs -> evs rhs ts gs -> bm_get A wop_maps = Some (map lift fs) -> nth_error fs i = Some f ->
  f gs = Val m -> ev A ts (mkTok m A).
Proof.
  intros Hp He Hf Hi E. unfold ev. 
  assert (Ew : wrap (mkTok m A) = mkTok (lift f (map wrap gs)) A).
  { unfold wrap, lift. cbn [tk_item tk_ty]. rewrite unwrap_wrap. cbn [bind]. now rewrite E. }
  rewrite Ew. eapply evals_rule; [exact Hp|exact He|exact Hf|]. now apply map_nth_error.
Qed.
Definition leafg (X : sym) (s : span) : gramem := mkTok (AToken X, s) X.
Lemma ev_leaf X s : term rules X -> ev X [(X, s)] (leafg X s).
Proof. intros H. exact (evals_tok rules wop_maps (lexed X s) H). Qed.
Lemma evs_nil : evs [] [] [].
Proof. constructor. Qed.
Lemma evs_cons X Xs ts us g gs : ev X ts g -> evs Xs us gs -> evs (X :: Xs) (ts ++ us) (g :: gs).
Proof. intros H1 H2. unfold evs, lex. rewrite map_app. now constructor. Qed.
Lemma evs_leaf X Xs s us gs : term rules X -> evs Xs us gs -> evs (X :: Xs) ((X, s) :: us) (leafg X s :: gs).
Proof. intros H1 H2. change ((X, s) :: us) with ([(X, s)] ++ us). apply evs_cons; auto. now apply ev_leaf. Qed.
Lemma evs_last X ts g : ev X ts g -> evs [X] ts [g].
Proof. intros H. rewrite <- (app_nil_r ts). apply evs_cons; auto using evs_nil. Qed.

Definition is_key (X : sym) : bool := match bm_get X rules with Some _ => true | None => false end.
Lemma term_b X : is_key X = false -> term rules X.
Proof. unfold is_key, term. intros H [r Hr]. rewrite Hr in H. discriminate. Qed.
Ltac leaf := apply term_b; vm_compute; reflexivity.

Lemma wop_nodup : NoDup (map fst wop_rules).
Proof. repeat constructor; simpl; intuition discriminate. Qed.
Lemma wop_prod A i w ps : In (A, ps) wop_rules -> nth_error ps i = Some w -> prod_at rules A i w.
Proof. intros H1 H2. apply grammar_map_get; [apply wop_nodup|]. eauto. Qed.
Lemma wop_prod_inv A i w : prod_at rules A i w -> exists ps, In (A, ps) wop_rules /\ nth_error ps i = Some w.
Proof. apply grammar_map_get, wop_nodup. Qed.

(** the reductors, unlifted *)
Definition item_reds : list (list gramem -> res meta) :=
  [red_item 0 (Some 1) (Some 3) (Some 4); red_item 0 (Some 1) (Some 3) (Some 3); red_item 0 (Some 1) None None;
   red_item 0 None (Some 2) (Some 3); red_item 0 None (Some 2) (Some 2); red_item 0 None None None;
   red_item 0 (Some 1) (Some 3) (Some 4); red_item 0 (Some 1) (Some 3) (Some 3); red_item 0 (Some 1) None None;
   red_item 0 None (Some 2) (Some 3); red_item 0 None (Some 2) (Some 2); red_item 0 None None None;
   red_item 1 (Some 3) (Some 5) (Some 6); red_item 1 (Some 3) (Some 5) (Some 5); red_item 1 (Some 3) None None;
   red_item 1 None (Some 4) (Some 5); red_item 1 None (Some 4) (Some 4); red_item 1 None None None].
Definition reds (A : sym) : list (list gramem -> res meta) :=
  match A with
  | RuleItem => item_reds
  | IdentPath => [red_path0; red_path1]
  | EntryPoint => [red_entry]
  | Rule => [red_rule01 (Some 3); red_rule01 None; red_rule23 (Some 1); red_rule23 None]
  | RulePipe => [red_pipe0; red_pipe1]
  | Import => [red_import; red_import]
  | Alias => [red_alias; red_alias]
  | Program => [red_prog0; red_prog0; red_prog0; red_prog3; red_prog3; red_prog3]
  | RuleDecl => [red_decl]
  | _ => []
  end.
Lemma reds_get A ps : In (A, ps) wop_rules -> bm_get A wop_maps = Some (map lift (reds A)).
Proof. simpl. intuition; match goal with H : (_, _) = _ |- _ => injection H as <- <- end; reflexivity. Qed.

(** build a phrase of the [i]-th production *)
Lemma build A i ts gs ps rhs f m : In (A, ps) wop_rules -> nth_error ps i = Some rhs -> evs rhs ts gs -> nth_error (reds A) i = Some f -> f gs = Val m -> ev A ts (mkTok m A).
Proof. intros Hi Hr He Hf E. eapply ev_rule; [eapply wop_prod; eauto|exact He|eapply reds_get; eauto|exact Hf|exact E]. Qed.
Ltac from i := eapply (build _ i); [simpl; tauto|reflexivity| |reflexivity|].
Ltac toks := repeat first [apply evs_leaf; [leaf|]|apply evs_nil|eapply evs_last; eassumption|eapply evs_cons; [eassumption|]].

Lemma path_ev ts s : path_toks ts s -> ev IdentPath ts (mkTok (AIdentPath s, s) IdentPath).
Proof.
  induction 1 as [[x y]|ts a p b H IH].
  - from 1; [toks|reflexivity].
  - from 0; [toks|reflexivity].
Qed.


Ltac pick_item n5 n4 n3 n2 n1 n0 :=
  match goal with Hq : quest_toks _ _, Hk : aka_toks _ _ _ |- _ => destruct Hq, Hk end; cbn [app]; eexists;
  [from n5|from n4|from n3|from n2|from n1|from n0]; [toks|reflexivity|toks|reflexivity|toks|reflexivity|toks|reflexivity|toks|reflexivity|toks|reflexivity].
Lemma item_path_ev ts g q o k a c : ev IdentPath ts g -> quest_toks q o -> aka_toks k a c -> exists sp, ev RuleItem (ts ++ q ++ k) (mkTok (ARuleItem g o a (is_some a), sp) RuleItem).
Proof. intros H Hq Hk. pick_item 5 4 3 2 1 0. Qed.
Lemma item_str_ev s q o k a c : quest_toks q o -> aka_toks k a c -> exists sp, ev RuleItem ((StrLit, s) :: q ++ k) (mkTok (ARuleItem (leafg StrLit s) o a (is_some a), sp) RuleItem).
Proof. intros Hq Hk. pick_item 11 10 9 8 7 6. Qed.
Lemma item_group_ev l ts g r q o k a c : ev Rule ts g -> quest_toks q o -> aka_toks k a c ->
  exists sp, ev RuleItem ((OpenParen, l) :: ts ++ (CloseParen, r) :: q ++ k) (mkTok (ARuleItem g o a (is_some a), sp) RuleItem).
Proof. intros H Hq Hk. pick_item 17 16 15 14 13 12. Qed.

Scheme item_toks_ind2 := Minimality for item_toks Sort Prop
  with pipe_toks_ind2 := Minimality for pipe_toks Sort Prop
  with alt_toks_ind2 := Minimality for alt_toks Sort Prop
  with alts_toks_ind2 := Minimality for alts_toks Sort Prop.
Combined Scheme toks_mut from item_toks_ind2, pipe_toks_ind2, alt_toks_ind2, alts_toks_ind2.

Definition rep_alts (l : list (list gramem * span)) (vs : list (list pat * span)) : Prop :=
  Forall2 (fun a b => snd a = snd b /\ Forall2 rep (fst a) (fst b)) l vs.

(** the tree of every piece of concrete syntax *)
Lemma toks_ev :
  (forall ts p, item_toks ts p -> exists g, ev RuleItem ts g /\ rep g p) /\
  (forall ts ps, pipe_toks ts ps -> exists g l, ev RulePipe ts g /\ g_ast g = ARulePipe l /\ Forall2 rep l ps) /\
  (forall ts v, alt_toks ts v -> (exists g l, ev RulePipe ts g /\ g_ast g = ARulePipe l /\ Forall2 rep l (fst v) /\ snd v = (0, 0)) \/
     exists g l us, ts = us ++ [(CodeBlock, snd v)] /\ ev RulePipe us g /\ g_ast g = ARulePipe l /\ Forall2 rep l (fst v)) /\
  (forall ts vs, alts_toks ts vs -> exists g l, ev Rule ts g /\ tk_ty g = Rule /\ g_ast g = ARule l /\ rep_alts l vs /\ vs <> []).
Proof.
  apply toks_mut.
  - intros ts s q o k a c Hp Hq Hk. apply path_ev in Hp. destruct (item_path_ev _ _ _ _ _ _ _ Hp Hq Hk) as (sp & H).
    eexists. split; [exact H|]. set (g := mkTok (AIdentPath s, s) IdentPath) in *. change s with (g_span g). eapply rep_sym; [reflexivity|now right].
  - intros s q o k a c Hq Hk. destruct (item_str_ev s _ _ _ _ _ Hq Hk) as (sp & H).
    eexists. split; [exact H|]. change s with (g_span (leafg StrLit s)). eapply rep_sym; [reflexivity|now left].
  - intros l ts r vs q o k a c _ (g & v & He & Ht & Ea & Hr & Hn) Hq Hk. destruct (item_group_ev l _ _ r _ _ _ _ _ He Hq Hk) as (sp & H).
    eexists. split; [exact H|]. eapply rep_group; [reflexivity|exact Ht|exact Ea|exact Hn|exact Hr].
  - intros ts p _ (g & He & Hr). eexists. exists [g]. split; [from 1; [toks|reflexivity]|]. split; [reflexivity|]. now constructor.
  - intros ts ps ts' p _ (g & l & He & Ea & Hr) _ (g' & He' & Hr'). eexists. exists (l ++ [g']).
    split; [from 0; [toks|]|].
    + unfold red_pipe0, metaM. simpl. rewrite Ea. reflexivity.
    + split; [reflexivity|]. apply Forall2_app; [exact Hr|now constructor].
  - intros ts ps _ (g & l & He & Ea & Hr). left. exists g, l. auto.
  - intros ts ps c _ (g & l & He & Ea & Hr). right. exists g, l, ts. auto.
  - intros ts [ps c] _ [(g & l & He & Ea & Hr & Ec)|(g & l & us & -> & He & Ea & Hr)]; simpl in *.
    + eexists. exists [(l, (0, 0))]. split; [from 3; [toks|]|].
      * unfold red_rule23, metaM. simpl. rewrite Ea. reflexivity.
      * repeat split; try discriminate. constructor; [|constructor]. auto.
    + eexists. exists [(l, c)]. split; [from 2; [toks|]|].
      * unfold red_rule23, metaM. simpl. rewrite Ea. reflexivity.
      * repeat split; try discriminate. constructor; [|constructor]. auto.
  - intros ts vs p ts' [ps c] _ (g0 & l0 & He0 & Ht0 & Ea0 & Hr0 & Hn0) _ [(g & l & He & Ea & Hr & Ec)|(g & l & us & -> & He & Ea & Hr)]; simpl in *.
    + eexists. exists (l0 ++ [(l, (0, 0))]). split; [from 1; [toks|]|].
      * unfold red_rule01, metaM. simpl. rewrite Ea0. simpl. rewrite Ea. reflexivity.
      * repeat split; [|now destruct vs]. apply Forall2_app; [exact Hr0|]. constructor; [|constructor]. auto.
    + eexists. exists (l0 ++ [(l, c)]). split; [from 0; [toks|]|].
      * unfold red_rule01, metaM. simpl. rewrite Ea0. simpl. rewrite Ea. reflexivity.
      * repeat split; [|now destruct vs]. apply Forall2_app; [exact Hr0|]. constructor; [|constructor]. auto.
Qed.

Lemma decl_ev ts d : decl_toks ts d -> exists g X, (X = Import \/ X = Alias \/ X = RuleDecl) /\ ev X ts g /\ rep_decl g d.
Proof.
  destruct 1 as [n name c t ty e r alts Hn Ht Ha|u ts s Hp|u ts s p g Hp|w x tk ts s Hx Hp].
  - apply path_ev in Hn, Ht. destruct (proj2 (proj2 (proj2 toks_ev)) _ _ Ha) as (g & l & He & _ & Ea & Hr & _).
    eexists. exists RuleDecl. split; [auto|]. split; [from 0; [toks|]|].
    + unfold red_decl, metaM. simpl. rewrite Ea. reflexivity.
    + econstructor; [reflexivity|exact Hr].
  - apply path_ev in Hp. eexists. exists Import. split; [auto|]. split; [from 1; [toks|reflexivity]|]. destruct s. constructor. reflexivity.
  - apply path_ev in Hp. eexists. exists Import. split; [auto|]. split; [from 0; [toks|reflexivity]|]. constructor. reflexivity.
  - apply path_ev in Hp. eexists. exists Alias. split; [auto|]. destruct Hx as [->| ->].
    + split; [from 0; [toks|reflexivity]|]. constructor. reflexivity.
    + split; [from 1; [toks|reflexivity]|]. constructor. reflexivity.
Qed.

Lemma file_ev ts ds : file_toks ts ds -> exists g, ev Program ts g /\ rep_file g ds.
Proof.
  induction 1 as [ts d s Hd|ts ds ts' d s Hf (g0 & He0 & l & Ea & Hl) Hd].
  - destruct (decl_ev _ _ Hd) as (g & X & HX & He & Hr).
    assert (exists g', ev Program (ts ++ [(Sc, s)]) g' /\ g_ast g' = AProgram [g]) as (g' & H1 & H2).
    { destruct HX as [->|[->| ->]]; eexists.
      - split; [from 4; [toks|reflexivity]|reflexivity].
      - split; [from 3; [toks|reflexivity]|reflexivity].
      - split; [from 5; [toks|reflexivity]|reflexivity]. }
    exists g'. split; [exact H1|]. exists [g]. split; [exact H2|]. now constructor.
  - destruct (decl_ev _ _ Hd) as (g & X & HX & He & Hr).
    assert (exists g', ev Program (ts ++ ts' ++ [(Sc, s)]) g' /\ g_ast g' = AProgram (l ++ [g])) as (g' & H1 & H2).
    { assert (forall y, exists m, red_prog0 [g0; g; y] = Val m /\ fst m = AProgram (l ++ [g])) as R.
      { intros y. unfold red_prog0, metaM. simpl. rewrite Ea. eexists. split; reflexivity. }
      destruct (R (leafg Sc s)) as (m & Em & E).
      destruct HX as [->|[->| ->]]; exists (mkTok m Program); (split; [|exact E]).
      - from 0; [toks|exact Em].
      - from 1; [toks|exact Em].
      - from 2; [toks|exact Em]. }
    exists g'. split; [exact H1|]. exists (l ++ [g]). split; [exact H2|]. apply Forall2_app; [exact Hl|now constructor].
Qed.

(** conversely, what a phrase of each symbol looks like and evaluates to *)
Definition sem (X : sym) (ts : list lexeme) (g : gramem) : Prop :=
  tk_ty g = X /\
  match X with
  | IdentPath => path_toks ts (g_span g) /\ g_ast g = AIdentPath (g_span g)
  | RuleItem => exists p, rep g p /\ item_toks ts p
  | RulePipe => exists l ps, g_ast g = ARulePipe l /\ Forall2 rep l ps /\ pipe_toks ts ps
  | Rule => exists l vs, g_ast g = ARule l /\ rep_alts l vs /\ alts_toks ts vs
  | Import | Alias | RuleDecl => exists d, rep_decl g d /\ decl_toks ts d
  | Program => exists ds, rep_file g ds /\ file_toks ts ds
  | EntryPoint => exists g', g_ast g = AEntryPoint g'
  | _ => g_ast g = AToken X /\ ts = [(X, g_span g)]
  end.
Fixpoint sems (Xs : list sym) (ts : list lexeme) (gs : list gramem) : Prop :=
  match Xs, gs with
  | [], [] => ts = []
  | X :: Xs, g :: gs => exists t1 t2, ts = t1 ++ t2 /\ sem X t1 g /\ sems Xs t2 gs
  | _, _ => False
  end.

Lemma sems_cons X Xs ts gs : sems (X :: Xs) ts gs -> exists g gs' t1 t2, gs = g :: gs' /\ ts = t1 ++ t2 /\ sem X t1 g /\ sems Xs t2 gs'.
Proof. destruct gs as [|g gs]; [easy|]. intros (t1 & t2 & H). exists g, gs, t1, t2. tauto. Qed.
Lemma sems_nil ts gs : sems [] ts gs -> gs = [] /\ ts = [].
Proof. now destruct gs. Qed.
Ltac open :=
  repeat match goal with
  | H : sems [] _ _ |- _ => apply sems_nil in H; destruct H; subst
  | H : sems (_ :: _) _ _ |- _ => let t := fresh "t" in let u := fresh "u" in let g := fresh "g" in let gs := fresh "gs" in let Ht := fresh "Ht" in let Hg := fresh "Hg" in
      apply sems_cons in H; destruct H as (g & gs & t & u & -> & -> & (Ht & Hg) & H); simpl in Hg
  end.
Ltac leaves := repeat match goal with H : g_ast _ = AToken _ /\ _ = [_] |- _ => destruct H; subst end.

Lemma sem_path i rhs ts gs r : nth_error [[IdentPath; PathAccess; Ident]; [Ident]] i = Some rhs -> sems rhs ts gs -> nth_error (reds IdentPath) i = Some r ->
  exists m, r gs = Val m /\ sem IdentPath ts (mkTok m IdentPath).
Proof.
  intros Hr Hs Hf. destruct i as [|[|i]]; simpl in Hr, Hf; [injection Hr as <-; injection Hf as <-..|now destruct i].
  - open. leaves. destruct Hg as [Hg E0]. eexists. split; [reflexivity|]. split; [reflexivity|]. split; [|reflexivity]. simpl. now constructor.
  - open. leaves. eexists. split; [reflexivity|]. split; [reflexivity|]. cbn [g_span tk_item snd g_ast fst]. rewrite <- surjective_pairing. split; [|reflexivity]. simpl. constructor.
Qed.

Lemma alts_ne ts vs : alts_toks ts vs -> vs <> [].
Proof. destruct 1 as [|? vs]; [easy|now destruct vs]. Qed.
Definition item_rhss : list (list sym) := snd (nth 0 wop_rules (RuleItem, [])).
Ltac each n tac := lazymatch n with
  | O => lazymatch goal with H : nth_error _ ?i = Some _ |- _ => simpl in H; now destruct i end
  | S ?m => lazymatch goal with Hr : nth_error _ ?i = Some _, Hf : nth_error _ ?i = Some _ |- _ =>
      let j := fresh "j" in destruct i as [|j]; cbn [nth_error] in Hr, Hf; [injection Hr as <-; injection Hf as <-; tac|each m tac] end
  end.
Ltac with_marks c := first
  [exact (c _ _ _ _ _ (quest_some _) (aka_clone _ _ _))|exact (c _ _ _ _ _ (quest_some _) (aka_name _ _))|exact (c _ _ _ _ _ (quest_some _) aka_none)
  |exact (c _ _ _ _ _ quest_none (aka_clone _ _ _))|exact (c _ _ _ _ _ quest_none (aka_name _ _))|exact (c _ _ _ _ _ quest_none aka_none)].
Lemma sem_item i rhs ts gs r : nth_error item_rhss i = Some rhs -> sems rhs ts gs -> nth_error item_reds i = Some r ->
  exists m, r gs = Val m /\ sem RuleItem ts (mkTok m RuleItem).
Proof.
  intros Hr Hs Hf. unfold item_rhss, item_reds in Hr, Hf. cbn [nth snd wop_rules] in Hr.
  each 18 ltac:(open; leaves; eexists; (split; [reflexivity|]); (split; [reflexivity|])).
  all: lazymatch goal with
    | Hp : path_toks _ _ /\ _ |- _ => destruct Hp as [Hp _]; eexists; (split; [first [eapply (rep_sym _ _ _ (Some _)); [reflexivity|auto]|eapply (rep_sym _ _ _ None); [reflexivity|auto]]|]);
        with_marks uconstr:(fun q o k a c => item_path _ _ q o k a c Hp)
    | Hp : exists l vs, _ /\ _ |- _ => destruct Hp as (l & vs & El & Hl & Hp); eexists; (split; [first [eapply (rep_group _ _ _ (Some _)); [reflexivity|eassumption|eassumption| |eassumption]|eapply (rep_group _ _ _ None); [reflexivity|eassumption|eassumption| |eassumption]]|]);
        [exact (alts_ne _ _ Hp)|with_marks uconstr:(fun q o k a c => item_group _ _ _ _ q o k a c Hp)]
    | _ => eexists; (split; [first [eapply (rep_sym _ _ _ (Some _)); [reflexivity|auto]|eapply (rep_sym _ _ _ None); [reflexivity|auto]]|]); with_marks uconstr:(fun q o k a c => item_str _ q o k a c)
    end.
Qed.

Lemma sem_pipe i rhs ts gs r : nth_error [[RulePipe; RuleItem]; [RuleItem]] i = Some rhs -> sems rhs ts gs -> nth_error (reds RulePipe) i = Some r ->
  exists m, r gs = Val m /\ sem RulePipe ts (mkTok m RulePipe).
Proof.
  intros Hr Hs Hf. cbn [reds] in Hf. each 2 ltac:(open; leaves).
  - destruct Hg as (l & ps & Ea & Hl & Hp), Hg0 as (p & Hrep & Hi). unfold red_pipe0, metaM. simpl. rewrite Ea.
    eexists. split; [reflexivity|]. split; [reflexivity|]. exists (l ++ [g0]), (ps ++ [p]). split; [reflexivity|].
    split; [apply Forall2_app; auto|]. rewrite app_nil_r. now constructor.
  - destruct Hg as (p & Hrep & Hi). eexists. split; [reflexivity|]. split; [reflexivity|]. exists [g], [p]. split; [reflexivity|].
    split; [auto|]. rewrite app_nil_r. now constructor.
Qed.

Lemma sem_rule i rhs ts gs r : nth_error [[Rule; Pipe; RulePipe; CodeBlock]; [Rule; Pipe; RulePipe]; [RulePipe; CodeBlock]; [RulePipe]] i = Some rhs ->
  sems rhs ts gs -> nth_error (reds Rule) i = Some r -> exists m, r gs = Val m /\ sem Rule ts (mkTok m Rule).
Proof.
  intros Hr Hs Hf. cbn [reds] in Hf. each 4 ltac:(open; leaves).
  - destruct Hg as (l & vs & Ea & Hl & Hp), Hg1 as (l' & ps & Ea' & Hl' & Hp'). unfold red_rule01, metaM. simpl. rewrite Ea. simpl. rewrite Ea'.
    eexists. split; [reflexivity|]. split; [reflexivity|]. exists (l ++ [(l', g_span g2)]), (vs ++ [(ps, g_span g2)]). split; [reflexivity|].
    split; [apply Forall2_app; auto; constructor; auto|]. apply (alts_more _ _ (g_span g0) (t1 ++ [(CodeBlock, g_span g2)])); auto. now constructor.
  - destruct Hg as (l & vs & Ea & Hl & Hp), Hg1 as (l' & ps & Ea' & Hl' & Hp'). unfold red_rule01, metaM. simpl. rewrite Ea. simpl. rewrite Ea'.
    eexists. split; [reflexivity|]. split; [reflexivity|]. exists (l ++ [(l', (0, 0))]), (vs ++ [(ps, (0, 0))]). split; [reflexivity|].
    split; [apply Forall2_app; auto; constructor; auto|]. rewrite app_nil_r. apply (alts_more _ _ (g_span g0)); auto. now constructor.
  - destruct Hg as (l' & ps & Ea' & Hl' & Hp'). unfold red_rule23, metaM. simpl. rewrite Ea'.
    eexists. split; [reflexivity|]. split; [reflexivity|]. exists [(l', g_span g0)], [(ps, g_span g0)]. split; [reflexivity|].
    split; [constructor; auto|]. constructor. now constructor.
  - destruct Hg as (l' & ps & Ea' & Hl' & Hp'). unfold red_rule23, metaM. simpl. rewrite Ea'.
    eexists. split; [reflexivity|]. split; [reflexivity|]. exists [(l', (0, 0))], [(ps, (0, 0))]. split; [reflexivity|].
    split; [constructor; auto|]. constructor. rewrite app_nil_r. now constructor.
Qed.

Lemma sem_import i rhs ts gs r : nth_error [[UseWord; IdentPath; PathAccess; Glob]; [UseWord; IdentPath]] i = Some rhs ->
  sems rhs ts gs -> nth_error (reds Import) i = Some r -> exists m, r gs = Val m /\ sem Import ts (mkTok m Import).
Proof.
  intros Hr Hs Hf. cbn [reds] in Hf. each 2 ltac:(open; leaves).
  - destruct Hg0 as [Hp _]. eexists. split; [reflexivity|]. split; [reflexivity|]. exists (DUse (fst (g_span g0), snd (g_span g2))). split; [now constructor|].
    exact (decl_glob _ _ _ _ _ Hp).
  - destruct Hg0 as [Hp _]. eexists. split; [reflexivity|]. split; [reflexivity|]. exists (DUse (g_span g0)). split.
    + constructor. simpl. now rewrite <- surjective_pairing.
    + rewrite app_nil_r. exact (decl_use _ _ _ Hp).
Qed.

Lemma sem_alias i rhs ts gs r : nth_error [[AliasWord; Ident; IdentPath]; [AliasWord; StrLit; IdentPath]] i = Some rhs ->
  sems rhs ts gs -> nth_error (reds Alias) i = Some r -> exists m, r gs = Val m /\ sem Alias ts (mkTok m Alias).
Proof.
  intros Hr Hs Hf. cbn [reds] in Hf.
  each 2 ltac:(open; leaves; destruct Hg1 as [Hp _]; eexists; (split; [reflexivity|]); (split; [reflexivity|]); exists (DAlias (g_span g0) (g_span g1));
    (split; [now constructor|]); rewrite app_nil_r; simpl; constructor; auto).
Qed.

Lemma sem_decl i rhs ts gs r : nth_error [[IdentPath; TwoDots; IdentPath; Assign; Rule]] i = Some rhs ->
  sems rhs ts gs -> nth_error (reds RuleDecl) i = Some r -> exists m, r gs = Val m /\ sem RuleDecl ts (mkTok m RuleDecl).
Proof.
  intros Hr Hs Hf. cbn [reds] in Hf. each 1 ltac:(open; leaves). destruct Hg as [Hp Ea], Hg1 as [Hp' Ea'], Hg3 as (l & vs & El & Hl & Hv).
  unfold red_decl, metaM. simpl. rewrite Ea. simpl. rewrite Ea'. simpl. rewrite El. eexists. split; [reflexivity|]. split; [reflexivity|].
  exists (DRule (g_span g) (g_span g1) vs). split; [econstructor; [reflexivity|exact Hl]|]. rewrite app_nil_r. simpl. now constructor.
Qed.

Lemma sem_program i rhs ts gs r : nth_error [[Program; Import; Sc]; [Program; Alias; Sc]; [Program; RuleDecl; Sc]; [Alias; Sc]; [Import; Sc]; [RuleDecl; Sc]] i = Some rhs ->
  sems rhs ts gs -> nth_error (reds Program) i = Some r -> exists m, r gs = Val m /\ sem Program ts (mkTok m Program).
Proof.
  intros Hr Hs Hf. cbn [reds] in Hf. each 6 ltac:(open; leaves).
  1-3: destruct Hg as (ds & (l & Ea & Hl) & Hp), Hg0 as (d & Hd & Ht'); unfold red_prog0, metaM; simpl; rewrite Ea; eexists; (split; [reflexivity|]); (split; [reflexivity|]);
    exists (ds ++ [d]); (split; [exists (l ++ [g0]); split; [reflexivity|]; apply Forall2_app; auto|]); now constructor.
  all: destruct Hg as (d & Hd & Ht'); eexists; (split; [reflexivity|]); (split; [reflexivity|]); exists [d]; (split; [exists [g]; split; [reflexivity|]; auto|]); now constructor.
Qed.

Lemma sem_any A ps i rhs ts gs r : In (A, ps) wop_rules -> nth_error ps i = Some rhs -> sems rhs ts gs -> nth_error (reds A) i = Some r ->
  exists m, r gs = Val m /\ sem A ts (mkTok m A).
Proof.
  intros Hi. simpl in Hi. repeat (destruct Hi as [[= <- <-]|Hi]); [..|destruct Hi].
  - apply sem_item.
  - apply sem_path.
  - intros Hr Hs Hf. cbn [reds] in Hf. each 1 ltac:(open; leaves). eexists. split; [reflexivity|]. split; [reflexivity|]. now eexists.
  - apply sem_rule.
  - apply sem_pipe.
  - apply sem_import.
  - apply sem_alias.
  - apply sem_program.
  - apply sem_decl.
Qed.

Lemma lex_app_inv w1 w2 ts : w1 ++ w2 = lex ts -> exists t1 t2, ts = t1 ++ t2 /\ w1 = lex t1 /\ w2 = lex t2.
Proof. intros E. symmetry in E. apply map_eq_app in E. destruct E as (t1 & t2 & -> & <- & <-). exists t1, t2. auto. Qed.

Lemma ev_sem :
  (forall X w it, evals rules wop_maps X w it -> forall ts, w = lex ts -> exists g, it = wrap g /\ sem X ts g) /\
  (forall Xs w its, evals_seq rules wop_maps Xs w its -> forall ts, w = lex ts -> exists gs, its = map wrap gs /\ sems Xs ts gs).
Proof.
  apply evals_mut.
  - intros tok Ht ts E. destruct ts as [|[X s] [|? ?]]; try discriminate. simpl in E. injection E as ->. exists (leafg X s). split; [reflexivity|].
    split; [reflexivity|]. simpl in *. destruct X; try (split; reflexivity); exfalso; apply Ht; eexists; vm_compute; reflexivity.
  - intros A i rhs w its fs f Hp _ IH Hm Hf ts E. destruct (IH ts E) as (gs & -> & Hs). apply wop_prod_inv in Hp. destruct Hp as (ps & Hi & Hn).
    rewrite (reds_get _ _ Hi) in Hm. injection Hm as <-. rewrite nth_error_map in Hf. destruct (nth_error (reds A) i) as [r|] eqn:Er; [|discriminate]. injection Hf as <-.
    destruct (sem_any A ps i rhs ts gs r Hi Hn Hs Er) as (m & Em & Hsem). exists (mkTok m A). split; [|exact Hsem].
    unfold wrap, lift. cbn [tk_item tk_ty]. rewrite unwrap_wrap. cbn [bind]. now rewrite Em.
  - intros ts E. destruct ts; [|discriminate]. now exists [].
  - intros X Xs w1 w2 it its _ IH1 _ IH2 ts E. destruct (lex_app_inv _ _ _ E) as (t1 & t2 & -> & E1 & E2).
    destruct (IH1 _ E1) as (g & -> & H1), (IH2 _ E2) as (gs & -> & H2). exists (g :: gs). split; [reflexivity|]. exists t1, t2. auto.
Qed.
