(** What wop's [main] prints, and that it slices its source only between characters. *)
From Coq Require Import List Bool Arith Lia String Permutation.
From Verif Require Import BTree Model Strings Wop WopSpec WopFront WopLex WopLexSpec WopLexP WopStr Base Spec SpecP GrammarP ActTab LR Sound Halt Interface Wrap Mono Check Export Examples Bundled RunFacts WopText WopParse WopMain WopExport WopRun WopPrint WopPrintSpec WopUtf WopSpans WopExt.
Import ListNotations.
Local Open Scope list_scope.
Local Notation len := String.length.
Local Infix "+++" := String.append (right associativity, at level 60).

Section Print.
Variable debug : string -> string.
Variable src : string.
Definition p_all := fix all (prefix : string) (lvl : nat) (l : list gramem) : res (list string) :=
    match l with
    | [] => Val []
    | mkTok (a, sp) ty :: l' => do x <- print_ast debug src ty sp a prefix lvl; do y <- all prefix lvl l'; Val (x ++ y)
    end.
Definition p_prods (lvl : nat) := fix prods (i : nat) (l : list (list gramem * span)) : res (list string) :=
    match l with
    | [] => Val []
    | (gs, cb) :: l' =>
        do x <- p_all "- " (S lvl) gs;
        do r <- reductor_line src lvl i cb;
        do y <- prods (S i) l';
        Val ((indent lvl +++ "|> production " +++ digits i +++ ":") :: x ++ r :: y)
    end.
Lemma print_eq g prefix lvl0 : print_nested debug src g prefix lvl0 =
  do t <- from_source src (g_span g);
  let line := indent lvl0 +++ prefix +++ sym_name (tk_ty g) +++ ": " +++ bright t in
  let lvl := S lvl0 in
  do rest <- match g_ast g with
    | AToken s => Val [indent lvl +++ "|> sym: " +++ sym_name s]
    | AEntryPoint g' => print_nested debug src g' "" lvl
    | AProgram gs => p_all "- " lvl gs
    | ARuleDecl ident rty rule =>
        do x <- field src lvl "rule_name" ident;
        do y <- field src lvl "rule_type" rty;
        do z <- p_prods lvl 0 rule;
        Val (x :: y :: z)
    | ARule gs => p_prods lvl 0 gs
    | ARulePipe gs => p_all "- " lvl gs
    | AImport g => do t <- from_source src g; Val [indent lvl +++ "|> path: " +++ t]
    | AAlias g h => do t <- from_source src g; do u <- from_source src h; Val [indent lvl +++ "|> alias: " +++ t; indent lvl +++ "|> definition: " +++ u]
    | AIdentPath g => do t <- from_source src g; Val [indent lvl +++ " " +++ t]
    | ARuleItem g' o al c =>
        do x <- print_nested debug src g' "" lvl;
        do n <- match al with Some s => do t <- from_source src s; Val (debug t) | None => Val "(null)"%string end;
        Val (x ++ [indent lvl +++ "|> optional: " +++ bool_name o; indent lvl +++ "|> clone: " +++ bool_name c; indent lvl +++ "|> alias: " +++ n])
    end;
  Val (line :: rest).
Proof. destruct g as [[a sp] ty]. destruct a as [s|[[a' s'] t']|l|i t r|l|l|[[a' s'] t'] o al c|s|tk al|s]; reflexivity. Qed.
Lemma p_all_cons prefix lvl g l : p_all prefix lvl (g :: l) = do x <- print_nested debug src g prefix lvl; do y <- p_all prefix lvl l; Val (x ++ y).
Proof. destruct g as [[a sp] ty]. reflexivity. Qed.

(** every slice succeeds: so does printing *)
Definition ok_span (s : span) : Prop := from_source src s = Val (slice src s).
Lemma p_all_total l : (forall h, In h l -> forall prefix lvl, exists x, print_nested debug src h prefix lvl = Val x) -> forall prefix lvl, exists x, p_all prefix lvl l = Val x.
Proof.
  induction l as [|g l IH]; intros H prefix lvl; [now eexists|]. rewrite p_all_cons. destruct (H g (or_introl eq_refl) prefix lvl) as (x & ->).
  destruct (IH (fun h Hh => H h (or_intror Hh)) prefix lvl) as (y & ->). now eexists.
Qed.
Lemma p_prods_total l : (forall h, In h (flat_map fst l) -> forall prefix lvl, exists x, print_nested debug src h prefix lvl = Val x) -> Forall ok_span (map snd l) -> forall lvl i, exists x, p_prods lvl i l = Val x.
Proof.
  induction l as [|[gs cb] l IH]; intros H Hr lvl i; [now eexists|]. inversion Hr as [|? ? H1 H2]; subst. cbn [p_prods].
  destruct (p_all_total gs) with (prefix := "- "%string) (lvl := S lvl) as (x & ->). { intros h Hh. apply H. simpl. apply in_or_app. now left. }
  cbn [bind]. unfold reductor_line. cbn [snd] in H1. rewrite H1. cbn [bind]. destruct (IH) with (lvl := lvl) (i := S i) as (y & Ey); auto.
  { intros h Hh. apply H. simpl. apply in_or_app. now right. } fold (p_prods lvl). rewrite Ey. now eexists.
Qed.
Lemma print_total g : all_in ok_span g -> forall prefix lvl, exists x, print_nested debug src g prefix lvl = Val x.
Proof.
  induction g as [g IH] using gramem_ind. intros Hg prefix lvl. rewrite print_eq. destruct (all_here _ _ Hg) as [H1 H2]. rewrite H1. cbn [bind]. cbv zeta.
  assert (Hc : forall h, In h (children g) -> forall prefix lvl, exists x, print_nested debug src h prefix lvl = Val x).
  { intros h Hh. apply IH; auto. eapply all_children; eauto. }
  unfold children in Hc. unfold references in H2. destruct (g_ast g) as [s|g'|l|i t r|l|l|g' o al c|s|tk al|s]; clear IH Hg.
  - now eexists.
  - destruct (Hc g' (or_introl eq_refl) ""%string (S lvl)) as (x & ->). now eexists.
  - destruct (p_all_total l Hc "- "%string (S lvl)) as (x & ->). now eexists.
  - inversion H2 as [|? ? Hi H3]; subst. inversion H3 as [|? ? Ht H4]; subst. unfold field. rewrite Hi, Ht. cbn [bind]. destruct (p_prods_total r Hc H4 (S lvl) 0) as (x & ->). now eexists.
  - destruct (p_prods_total l Hc H2 (S lvl) 0) as (x & ->). now eexists.
  - destruct (p_all_total l Hc "- "%string (S lvl)) as (x & ->). now eexists.
  - destruct (Hc g' (or_introl eq_refl) ""%string (S lvl)) as (x & ->). cbn [bind]. destruct al as [s|]; [|now eexists]. inversion H2 as [|? ? Hs _]; subst. rewrite Hs. now eexists.
  - inversion H2 as [|? ? Hs _]; subst. rewrite Hs. now eexists.
  - inversion H2 as [|? ? Hs H3]; subst. inversion H3 as [|? ? Ht _]; subst. rewrite Hs, Ht. now eexists.
  - inversion H2 as [|? ? Hs _]; subst. rewrite Hs. now eexists.
Qed.

(** what is printed *)
Lemma picked_none {A} (m : list A) : picked [] m.
Proof. induction m; constructor; auto. Qed.
Lemma picked_app {A} (l m l' m' : list A) : picked l m -> picked l' m' -> picked (l ++ l') (m ++ m').
Proof. induction 1; intros H'; simpl; [auto|apply picked_skip; auto|apply picked_take; auto]. Qed.
Lemma from_val s t : from_source src s = Val t -> t = slice src s.
Proof. unfold from_source. destruct (_ && _); [|discriminate]. congruence. Qed.
(** the nodes [hs] are shown among the lines [l] *)
Definition shown (hs : list gramem) (l : list string) : Prop := exists ls, Forall2 (shows src) hs ls /\ picked ls l.
Lemma shown_app a b l m : shown a l -> shown b m -> shown (a ++ b) (l ++ m).
Proof. intros (x & F1 & P1) (y & F2 & P2). exists (x ++ y). split; [now apply Forall2_app|now apply picked_app]. Qed.
Lemma shown_none l : shown [] l.
Proof. exists []. split; [constructor|apply picked_none]. Qed.
Lemma shown_skip a x l : shown a l -> shown a (x :: l).
Proof. intros (y & F & Pk). exists y. split; [exact F|now constructor]. Qed.
Lemma shown_more a l m : shown a l -> shown a (l ++ m).
Proof. intros H. rewrite <- (app_nil_r a). apply shown_app; [exact H|apply shown_none]. Qed.
Lemma walks_app l m w : walks (l ++ m) w -> exists w1 w2, w = w1 ++ w2 /\ walks l w1 /\ walks m w2.
Proof.
  revert w. induction l as [|g l IH]; intros w H; [exists [], w; split; [reflexivity|split; [constructor|auto]]|]. inversion H as [|? ? w1 w2 H1 H2]; subst.
  destruct (IH _ H2) as (w3 & w4 & -> & H3 & H4). exists (w1 ++ w3), w4. rewrite app_assoc. split; auto. split; auto. now constructor.
Qed.
Definition reveals (h : gramem) : Prop := forall prefix lvl l hs, print_nested debug src h prefix lvl = Val l -> walk h hs -> shown hs l.
Lemma p_all_shown gs : (forall h, In h gs -> reveals h) -> forall prefix lvl l hs, p_all prefix lvl gs = Val l -> walks gs hs -> shown hs l.
Proof.
  induction gs as [|g gs IH]; intros H prefix lvl l hs E W; inversion W as [|? ? w1 w2 W1 W2]; subst; [apply shown_none|]. rewrite p_all_cons in E. apply bind_val in E as (x & Ex & E). apply bind_val in E as (y & Ey & E). injection E as <-.
  apply shown_app; [eapply H; eauto; now left|]. refine (IH _ _ _ _ _ Ey W2). intros h Hh. apply H. now right.
Qed.
Lemma p_prods_shown r : (forall h, In h (flat_map fst r) -> reveals h) -> forall lvl i l hs, p_prods lvl i r = Val l -> walks (flat_map fst r) hs -> shown hs l.
Proof.
  induction r as [|[gs cb] r IH]; intros H lvl i l hs E W; [inversion W; subst; apply shown_none|]. simpl in W. apply walks_app in W as (w1 & w2 & -> & W1 & W2).
  cbn [p_prods] in E. apply bind_val in E as (x & Ex & E). apply bind_val in E as (c & _ & E). fold (p_prods lvl) in E. apply bind_val in E as (y & Ey & E). injection E as <-.
  apply shown_skip. apply shown_app.
  - refine (p_all_shown gs _ _ _ _ _ Ex W1). intros h Hh. apply H. simpl. apply in_or_app. now left.
  - apply shown_skip. refine (IH _ _ _ _ _ Ey W2). intros h Hh. apply H. simpl. apply in_or_app. now right.
Qed.
Lemma walks_one g hs : walks [g] hs -> walk g hs.
Proof. intros H. inversion H as [|? ? a b H1 H2]; subst. inversion H2; subst. now rewrite app_nil_r. Qed.
Theorem print_shows g : reveals g.
Proof.
  pattern g. apply gramem_ind. clear g. unfold reveals at 2. intros g IH. intros prefix lvl l hs E W.
  inversion W as [? ls W']; subst. rewrite print_eq in E. apply bind_val in E as (t & Et & E). cbv zeta in E. apply bind_val in E as (rest & Er & E). injection E as <-.
  apply from_val in Et. subst t.
  assert (shown ls rest) as (y & F & Pk). 2:{ exists ((indent lvl +++ prefix +++ sym_name (tk_ty g) +++ ": " +++ bright (slice src (g_span g))) :: y). split; [constructor; [now exists lvl, prefix|exact F]|now constructor]. }
  unfold children in IH, W'. destruct (g_ast g) as [s|g'|gs|i t r|r|gs|g' o al c|s|tk al|s]; try (inversion W'; subst; apply shown_none).
  - apply walks_one in W'. eapply IH; eauto. now left.
  - eapply p_all_shown; eauto.
  - apply bind_val in Er as (a & _ & Er). apply bind_val in Er as (b & _ & Er). apply bind_val in Er as (z & Ez & Er). injection Er as <-. do 2 apply shown_skip. eapply p_prods_shown; eauto.
  - eapply p_prods_shown; eauto.
  - eapply p_all_shown; eauto.
  - apply walks_one in W'. apply bind_val in Er as (x & Ex & Er). apply bind_val in Er as (n & _ & Er). injection Er as <-. apply shown_more. eapply IH; eauto. now left.
Qed.
End Print.

(** the spans of a tree over the tokens of a source text *)
Lemma spans_order ts s n : laid_out n ts -> spans ts s -> fst s <= snd s.
Proof.
  intros [Hp Hf] (a & z & Ha & Hz & ->). simpl. destruct ts as [|a' ts]; [discriminate|]. injection Ha as ->.
  assert (Hin : In z (a :: ts)). { apply in_rev. destruct (rev (a :: ts)); [discriminate|]. injection Hz as ->. now left. }
  rewrite Forall_forall in Hf. pose proof (Hf a (or_introl eq_refl)) as Q1. pose proof (Hf z Hin) as Q2. cbv beta in Q1, Q2. destruct Hin as [->|Hin]; [destruct z as [kz [z1 z2]]; cbn [fst snd] in *; lia|]. inversion Hp as [|? ? Hq _]; subst. rewrite Forall_forall in Hq. specialize (Hq z Hin). destruct z as [kz [z1 z2]], a as [ka [a1 a2]]. cbn [fst snd] in *. lia.
Qed.
Lemma laid_infix n t1 t2 t3 : laid_out n (t1 ++ t2 ++ t3) -> laid_out n t2.
Proof.
  intros [Hp Hf]. apply Forall_app in Hf as [_ Hf]. apply Forall_app in Hf as [Hf _]. split; [|exact Hf]. clear Hf. induction t1 as [|a t1 IH]; [|apply IH; now inversion Hp].
  simpl in Hp. induction t2 as [|a t2 IH]; [constructor|]. simpl in Hp. inversion Hp as [|? ? H1 H2]; subst. constructor; [|now apply IH]. now apply Forall_app in H1 as [H1 _].
Qed.
Section Slices.
Variable lg : logos.
Hypothesis Hlg : by_chars lg.
Variable src : string.
Hypothesis Hsrc : utf8 src.
Lemma token_slice t : In t (tokenize lg src) -> from_source src (snd t) = Val (slice src (snd t)).
Proof.
  intros Ht. pose proof (tokens_cut lg Hlg src Hsrc) as H. rewrite Forall_forall in H. destruct (H t Ht) as [H1 H2]. destruct t as [k [a b]]. apply cuts_slice; auto.
  pose proof (proj2 (lexes_laid lg src _ (tokenize_lexes lg src))) as Hl. rewrite Forall_forall in Hl. specialize (Hl _ Ht). simpl in Hl |- *. lia.
Qed.
Lemma within_slice s : within (tokenize lg src) s -> ok_span src s.
Proof.
  intros [->|(t1 & t2 & t3 & E & Hs)]; [unfold ok_span, from_source; destruct src; reflexivity|].
  pose proof (lexes_laid lg src _ (tokenize_lexes lg src)) as Hl. rewrite E in Hl. apply laid_infix in Hl. pose proof (spans_order _ _ _ Hl Hs) as Ho.
  destruct Hs as (a & z & Ha & Hz & ->). simpl in Ho. pose proof (tokens_cut lg Hlg src Hsrc) as H. rewrite Forall_forall in H.
  apply cuts_slice; auto; apply H; rewrite E; apply in_or_app; right; apply in_or_app; left.
  - destruct t2; [discriminate|]. injection Ha as ->. now left.
  - apply in_rev. destruct (rev t2); [discriminate|]. injection Hz as ->. now left.
Qed.
End Slices.

#[local] Opaque wop_maps.
Section Runs.
Variable lg : logos.
Variable dbg : bool.
(** the run of the parser *)
Theorem parse_tree src : exists o items parts rest, parsed lg dbg src o items /\ tokenize lg src = List.concat parts ++ rest /\ Forall2 located parts items /\
  (o = Ok -> rest = [] /\ exists g, items = [g]) /\
  forall text order iter, exists F, forall fuel, F <= fuel -> wop_main text order iter dbg fuel (lex (tokenize lg src)) =
    (do g <- expect P_index (nth_error items 0); do b <- process text order fuel builder_new g; do s <- write_out text b (iter (b_rules b)); Val (o, s)).
Proof.
  set (ts := tokenize lg src). assert (Ht : Forall (fun x => term rules (fst x)) ts) by (eapply lexed_terms, tokenize_lexes).
  destruct (wop_exact SLR dbg) as (g & t & Hg & Hm & _ & _ & L1 & L2).
  assert (Hterm : Forall (term rules) (map tk_ty (lex ts))) by (rewrite lex_tys, Forall_map; exact Ht).
  destruct (wop_clean dbg) as (g1 & t1 & Hg1 & Hm1 & Hc).
  assert (g1 = g) as -> by (unfold wop_grammar in Hg1, Hg; congruence).
  assert (t1 = t) as -> by (destruct Hm as (n & E), Hm1 as (n1 & E1); pose proof (rle_val _ _ _ (slr_new_rle dbg n (n + n1) g ltac:(lia)) E) as Ea; pose proof (rle_val _ _ _ (slr_new_rle dbg n1 (n + n1) g ltac:(lia)) E1) as Eb; congruence).
  assert (exists d' o, runs (dfa_new (lex ts) (t_actions t) wop_maps Eof) (d', o)) as (d' & o & R).
  { destruct (L2 _ wop_maps (lex ts) wop_covers Hterm) as [[_ (m & Hs)]|[_ (e' & Hs)]];
      apply (parses_runs dbg EntryPoint Eof rules g wop_wf Hg wop_maps SLR t Hm) in Hs; destruct Hs as (d' & o & R & _); eauto. }
  assert (exists parts rest gs, ts = List.concat parts ++ rest /\ Forall2 located parts gs /\ rev (d_items d') = map wrap gs /\ (o = Ok -> rest = [] /\ exists g, gs = [g])) as (parts & tr & gs & Ets & F & Egs & Hok).
  { destruct o as [|e].
    - destruct (start_items dbg g t _ d' Hg Hm R) as (it & He & Hi). destruct (proj1 ev_located _ _ _ He ts eq_refl) as (x & -> & Hx).
      exists [ts], [], [x]. rewrite Hi. split; [simpl; now rewrite !app_nil_r|]. split; [constructor; [exact Hx|constructor]|]. split; [reflexivity|]. intros _. split; eauto.
    - destruct (run_items dbg g t _ d' _ Hg Hm Hc Hterm R) as (used & Eu & Hev).
      symmetry in Eu. apply lex_app_inv in Eu as (tu & tr & Ets & -> & Eb). destruct (proj2 ev_located _ _ _ Hev tu eq_refl) as (gs & Egs & Hp & _).
      assert (Hparts : forall us hs, parted us hs -> exists parts, us = List.concat parts /\ Forall2 located parts hs).
      { clear. induction 1 as [|us g vs gs H1 H2 (parts & -> & F)]; [exists []; split; [reflexivity|constructor]|]. exists (us :: parts). split; [reflexivity|now constructor]. }
      destruct (Hparts _ _ Hp) as (parts & -> & F). exists parts, tr, gs. repeat (split; auto); discriminate. }
  exists o, gs, parts, tr. split; [|split; [exact Ets|split; [exact F|split; [exact Hok|]]]].
  - destruct R as (n1 & E1). destruct Hm as (n2 & E2). exists (n1 + n2). intros fuel L. unfold wop_parse. rewrite Hg1. cbn [bind].
    rewrite (rle_val _ _ _ (slr_new_rle dbg n2 fuel g ltac:(lia)) E2). cbn [bind]. fold ts.
    change (map (fun t => lexed (fst t) (snd t)) ts) with (lex ts).
    rewrite (makes_dfa dbg EntryPoint Eof rules g wop_wf Hg wop_maps SLR t ltac:(now exists n2)). cbn [bind].
    rewrite (rle_val _ _ _ (start_rle n1 fuel _ ltac:(lia)) E1). cbn [bind]. rewrite Egs, unwrap_wrap. reflexivity.
  - intros text order iter. destruct (main_run text order iter dbg g t _ d' o Hg Hm R) as (F0 & E0). exists F0. intros fuel L. rewrite (E0 fuel L).
    assert (Ei : d_items d' = map wrap (rev gs)) by (rewrite map_rev, <- Egs, rev_involutive; reflexivity).
    rewrite Ei, wrap_items, <- map_rev, rev_involutive. cbn [bind]. destruct gs as [|gr gs']; [reflexivity|]. cbn [map nth_error expect bind].
    assert (Ew : tk_item (wrap gr) = Val (tk_item gr)) by reflexivity. rewrite Ew. cbn [bind]. change (tk_ty (wrap gr)) with (tk_ty gr). now destruct gr.
Qed.
End Runs.

Section Main.
Variable debug : string -> string.
Variable lg : logos.
Hypothesis Hlg : by_chars lg.
Variable order : prod_build -> list prod_build -> list span -> list span.
Hypothesis Ho : iterates order.
Variable iter : list (string * list prod_build) -> list (string * list prod_build).
Hypothesis Hi : forall l, Permutation (iter l) l.
Variable dbg : bool.
Variable src : string.
Hypothesis Hsrc : utf8 src.

Lemma inside_ok parts items rest g : tokenize lg src = List.concat parts ++ rest -> Forall2 located parts items -> In g items -> all_in (ok_span src) g.
Proof.
  intros Ets F Hg h Hh. assert (exists t1 t2 t3, tokenize lg src = t1 ++ t2 ++ t3 /\ located t2 g) as (t1 & t2 & t3 & E & Hl).
  { rewrite Ets. clear Ets. induction F as [|p x parts items Hp F IH]; [easy|]. destruct Hg as [->|Hg].
    - exists [], p, (List.concat parts ++ rest). simpl. now rewrite app_assoc.
    - destruct (IH Hg) as (t1 & t2 & t3 & E & Hl). exists (p ++ t1), t2, t3. split; [|auto]. simpl. now rewrite <- !app_assoc, E. }
  destruct (inside_within _ _ _ Hl Hh) as [H1 H2]. split.
  - apply (within_slice lg Hlg src Hsrc). rewrite E. now apply within_in.
  - eapply Forall_impl; [|exact H2]. intros s Hs. apply (within_slice lg Hlg src Hsrc). rewrite E. now apply within_in.
Qed.
Lemma lines_total : mapM (token_line src) (tokenize lg src) =
  Val (map (fun t => """" +++ slice src (snd t) +++ """ (" +++ sym_name (fst t) +++ ") [" +++ digits (fst (snd t)) +++ ".." +++ digits (snd (snd t)) +++ "]") (tokenize lg src)).
Proof.
  assert (H : forall t, In t (tokenize lg src) -> from_source src (snd t) = Val (slice src (snd t))) by (intros t; apply (token_slice lg Hlg src Hsrc)).
  induction (tokenize lg src) as [|t ts IH]; [reflexivity|]. cbn [mapM map]. rewrite IH by (intros x Hx; apply H; now right). unfold token_line. rewrite (H t) by now left. reflexivity.
Qed.
Lemma empty_ok P : b_ok P builder_new.
Proof. repeat split; try constructor. intros k v. simpl. discriminate. Qed.

Theorem main_prints text : (forall s t, from_source src s = Val t -> text s = t) -> forall r, runs_main lg order iter dbg src r ->
  match r with
  | Val (o, s) => exists g items tree, parsed lg dbg src o (g :: items) /\ print_nested debug src g "" 0 = Val tree /\
      prints debug lg order iter text dbg src
        (Val (o, s, (map (fun t => """" +++ slice src (snd t) +++ """ (" +++ sym_name (fst t) +++ ") [" +++ digits (fst (snd t)) +++ ".." +++ digits (snd (snd t)) +++ "]") (tokenize lg src), tree)))
  | Panic p => prints debug lg order iter text dbg src (Panic p)
  | Fuel => False
  end.
Proof.
  intros Ht r (F & EF). destruct (parse_tree lg dbg src) as (o & items & parts & rest & (Fp & Ep) & Ets & Hl & _ & Hmain).
  destruct (Hmain (slice src) order iter) as (Fm & Em). unfold lex in Em.
  assert (Er : forall fuel, F + Fm <= fuel -> r = (do g <- expect P_index (nth_error items 0); do b <- process (slice src) order fuel builder_new g; do s <- write_out (slice src) b (iter (b_rules b)); Val (o, s))).
  { intros fuel L. rewrite <- Em by lia. symmetry. apply EF. lia. }
  assert (Epr : forall fuel, Fp <= fuel -> wop_main_printing debug lg order iter text dbg fuel src =
    do g <- expect P_index (nth_error items 0); do tree <- print_nested debug src g "" 0; do b <- process text order fuel builder_new g; do s <- write_out text b (iter (b_rules b));
    Val (o, s, (map (fun t => """" +++ slice src (snd t) +++ """ (" +++ sym_name (fst t) +++ ") [" +++ digits (fst (snd t)) +++ ".." +++ digits (snd (snd t)) +++ "]") (tokenize lg src), tree))).
  { intros fuel L. unfold wop_main_printing. rewrite lines_total. cbn [bind]. rewrite Ep by lia. reflexivity. }
  destruct items as [|g items].
  { cbn [nth_error expect bind] in Er, Epr. rewrite (Er _ (Nat.le_refl _)). exists Fp. exact Epr. }
  cbn [nth_error expect bind] in Er, Epr.
  pose proof (inside_ok _ _ _ g Ets Hl (or_introl eq_refl)) as Hg. destruct (print_total debug src g Hg "" 0) as (tree & Etree). rewrite Etree in Epr. cbn [bind] in Epr.
  assert (Et : forall s, ok_span src s -> slice src s = text s) by (intros s Hs; symmetry; now apply Ht).
  assert (Same : forall fuel, (do b <- process text order fuel builder_new g; do s <- write_out text b (iter (b_rules b)); Val (o, s)) =
                              (do b <- process (slice src) order fuel builder_new g; do s <- write_out (slice src) b (iter (b_rules b)); Val (o, s))).
  { intros fuel. destruct (process_same _ _ _ Et order Ho fuel builder_new g (empty_ok _) Hg) as [E Hb]. rewrite <- E. destruct (process (slice src) order fuel builder_new g) as [b|p|]; try reflexivity. cbn [bind].
    specialize (Hb b eq_refl). rewrite (write_same _ _ _ Et b (iter (b_rules b)) Hb); [reflexivity|]. eapply Permutation_Forall; [apply Permutation_sym, Hi|]. now destruct Hb as (_ & Hb & _). }
  assert (Er' : forall fuel, F + Fm <= fuel -> r = (do b <- process text order fuel builder_new g; do s <- write_out text b (iter (b_rules b)); Val (o, s))) by (intros fuel L; rewrite Same; auto). clear Er Same.
  destruct r as [[o' s]|p|].
  - assert (o' = o) as ->. { pose proof (Er' _ (Nat.le_refl _)) as E. symmetry in E. apply bind_val in E as (b & _ & E). apply bind_val in E as (s' & _ & E). congruence. }
    exists g, items, tree. split; [now exists Fp|]. split; [exact Etree|]. exists (Fp + (F + Fm)). intros fuel L. rewrite Epr by lia. specialize (Er' fuel ltac:(lia)). symmetry in Er'.
    apply bind_val in Er' as (b & Eb & E). rewrite Eb. cbn [bind]. apply bind_val in E as (s' & Es & E). rewrite Es. injection E as <-. reflexivity.
  - exists (Fp + (F + Fm)). intros fuel L. rewrite Epr by lia. specialize (Er' fuel ltac:(lia)). destruct (process text order fuel builder_new g) as [b|p'|]; cbn [bind] in *; try congruence.
    destruct (write_out text b (iter (b_rules b))); cbn [bind] in *; congruence.
  - destruct (runs_main_cases lg order Ho iter Hi dbg src) as [(ds & b & s & _ & _ & _ & _ & F' & E')|[(ds & _ & _ & F' & E')|(_ & e & _ & [(p & _ & F' & E')|(t1 & t2 & ds & b & s & _ & _ & _ & _ & _ & F' & E')])]];
      specialize (EF (F + F') ltac:(lia)); rewrite E' in EF by lia; discriminate.
Qed.
End Main.

(** every tree is walked through *)
Lemma walks_total gs : (forall h, In h gs -> exists hs, walk h hs /\ forall x, inside x h -> In x hs) -> exists hs, walks gs hs /\ forall g x, In g gs -> inside x g -> In x hs.
Proof.
  induction gs as [|g gs IH]; intros H; [exists []; split; [constructor|easy]|]. destruct (H g (or_introl eq_refl)) as (a & Ha & Ia).
  destruct IH as (b & Hb & Ib); [intros h Hh; apply H; now right|]. exists (a ++ b). split; [now constructor|]. intros h x [<-|Hh] Hx; apply in_or_app; [left; auto|right; eauto].
Qed.
Lemma walk_total g : exists hs, walk g hs /\ forall x, inside x g -> In x hs.
Proof.
  pattern g. apply gramem_ind. clear g. intros g IH. destruct (walks_total (children g) IH) as (hs & Hw & Hi). exists (g :: hs). split; [now constructor|].
  intros x Hx. inversion Hx as [|? g' Hc Hx']; subst; [now left|right; eauto].
Qed.
Theorem printed debug src g prefix lvl l : print_nested debug src g prefix lvl = Val l ->
  exists hs ls, walk g hs /\ (forall h, inside h g -> In h hs) /\ Forall2 (shows src) hs ls /\ picked ls l.
Proof.
  intros E. destruct (walk_total g) as (hs & Hw & Hi). destruct (print_shows debug src g prefix lvl l hs E Hw) as (ls & F & Pk). exists hs, ls. auto.
Qed.
Theorem parse_located lg dbg src : exists o items parts rest, parsed lg dbg src o items /\ tokenize lg src = List.concat parts ++ rest /\ Forall2 located parts items /\
  (o = Ok -> rest = [] /\ exists g, items = [g]).
Proof. destruct (parse_tree lg dbg src) as (o & items & parts & rest & H1 & H2 & H3 & H4 & _). exists o, items, parts, rest. auto. Qed.
