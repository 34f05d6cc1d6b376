(** The nodes of the trees made by wop's reductors lie where their tokens lie. *)
From Coq Require Import List Bool Arith Lia String.
From Verif Require Import BTree Model Wop WopSpec WopLex WopLexSpec WopPrint WopPrintSpec WopFront Spec Base.
Import ListNotations.
Local Open Scope list_scope.

Lemma placed_app ts gs us hs : placed ts gs -> placed us hs -> placed (ts ++ us) (gs ++ hs).
Proof. induction 1; intros Hu; simpl; auto; [apply placed_skip; auto|]. rewrite <- app_assoc. apply placed_node; auto. Qed.
Lemma placed_none ts : placed ts [].
Proof. induction ts; [apply placed_nil|now apply placed_skip]. Qed.
Lemma placed_in t1 t2 t3 gs : placed t2 gs -> placed (t1 ++ t2 ++ t3) gs.
Proof. intros H. change gs with ([] ++ gs). apply placed_app; [apply placed_none|]. rewrite <- (app_nil_r gs). apply placed_app; [exact H|apply placed_none]. Qed.
Lemma located_placed ts g : located ts g -> placed ts [g].
Proof. intros H. rewrite <- (app_nil_r ts). apply placed_node; [exact H|apply placed_nil]. Qed.

(** the tokens [ts], cut into one piece for each of [gs] *)
Inductive parted : list lexeme -> list gramem -> Prop :=
| parted_nil : parted [] []
| parted_cons ts g us gs : located ts g -> parted us gs -> parted (ts ++ us) (g :: gs).
Lemma parted_nth gs : forall ts i g, parted ts gs -> nth_error gs i = Some g -> exists t1 t2 t3, ts = t1 ++ t2 ++ t3 /\ parted t1 (firstn i gs) /\ located t2 g /\ parted t3 (skipn (S i) gs).
Proof.
  induction gs as [|h gs IH]; intros ts i g H Hi; [now destruct i|]. inversion H as [|t h' us gs' Hl Hp]; subst. destruct i as [|i]; simpl in *.
  - injection Hi as ->. exists [], t, us. split; auto. split; [constructor|auto].
  - destruct (IH us i g Hp Hi) as (t1 & t2 & t3 & -> & H1 & H2 & H3). exists (t ++ t1), t2, t3. split; [now rewrite app_assoc|]. split; [now constructor|auto].
Qed.
Lemma parted_two ts gs i j a b : parted ts gs -> nth_error gs i = Some a -> nth_error gs j = Some b -> i < j ->
  exists t1 t2 t3 t4 t5, ts = t1 ++ t2 ++ t3 ++ t4 ++ t5 /\ located t2 a /\ located t4 b.
Proof.
  intros H Hi Hj L. destruct (parted_nth gs ts i a H Hi) as (t1 & t2 & t3 & -> & _ & H2 & H3).
  assert (Hj' : nth_error (skipn (S i) gs) (j - S i) = Some b).
  { rewrite <- (firstn_skipn (S i) gs) in Hj. assert (List.length (firstn (S i) gs) = S i) as E. { apply firstn_length_le. assert (nth_error gs i <> None) as N by congruence. apply nth_error_Some in N. lia. }
    rewrite nth_error_app2 in Hj by lia. now rewrite E in Hj. }
  destruct (parted_nth _ t3 _ b H3 Hj') as (u1 & u2 & u3 & -> & _ & H4 & _). exists t1, t2, u1, u2, u3. auto.
Qed.

(** [s] reaches over some of [ts], or is that of a missing code block *)
Definition within (ts : list lexeme) (s : span) : Prop := s = (0, 0) \/ exists t1 t2 t3, ts = t1 ++ t2 ++ t3 /\ spans t2 s.
Lemma within_in t1 t2 t3 s : within t2 s -> within (t1 ++ t2 ++ t3) s.
Proof. intros [->|(u1 & u2 & u3 & -> & H)]; [now left|right]. exists (t1 ++ u1), u2, (u3 ++ t3). split; [now rewrite <- !app_assoc|auto]. Qed.
Lemma located_refs ts g s : located ts g -> In s (references g) -> within ts s.
Proof. intros H. destruct H as [ts g H1 H2 H3]. apply H2. Qed.
Lemma located_children ts g : located ts g -> placed ts (children g).
Proof. intros H. now destruct H. Qed.
Lemma located_span ts g : located ts g -> spans ts (g_span g).
Proof. intros H. now destruct H. Qed.
Lemma within_refs ts gs i a s : parted ts gs -> nth_error gs i = Some a -> In s (references a) -> within ts s.
Proof. intros H Hi Hs. destruct (parted_nth _ _ _ _ H Hi) as (t1 & t2 & t3 & -> & _ & H2 & _). apply within_in. eapply located_refs; eauto. Qed.
Lemma within_span ts gs i a : parted ts gs -> nth_error gs i = Some a -> within ts (g_span a).
Proof. intros H Hi. destruct (parted_nth _ _ _ _ H Hi) as (t1 & t2 & t3 & -> & _ & H2 & _). right. exists t1, t2, t3. split; auto. now apply located_span. Qed.
Lemma spans_cat t2 t3 t4 a b : spans t2 a -> spans t4 b -> spans (t2 ++ t3 ++ t4) (fst a, snd b).
Proof.
  intros (x & y & Hx & Hy & ->) (z & w & Hz & Hw & ->). exists x, w. cbn [fst snd]. split; [|split; auto].
  - destruct t2; [discriminate|auto].
  - rewrite !rev_app_distr. destruct (rev t4); [discriminate|auto].
Qed.
Lemma within_range ts gs i j a b : parted ts gs -> nth_error gs i = Some a -> nth_error gs j = Some b -> i <= j -> within ts (fst (g_span a), snd (g_span b)).
Proof.
  intros H Hi Hj L. destruct (Nat.eq_dec i j) as [->|N].
  - rewrite Hi in Hj. injection Hj as <-. rewrite <- surjective_pairing. eapply within_span; eauto.
  - destruct (parted_two ts gs i j a b H Hi Hj) as (t1 & t2 & t3 & t4 & t5 & -> & H2 & H4); [lia|]. right. exists t1, (t2 ++ t3 ++ t4), t5.
    split; [now rewrite <- !app_assoc|]. apply spans_cat; now apply located_span.
Qed.
Lemma placed_one ts gs i a : parted ts gs -> nth_error gs i = Some a -> placed ts [a].
Proof. intros H Hi. destruct (parted_nth _ _ _ _ H Hi) as (t1 & t2 & t3 & -> & _ & H2 & _). apply placed_in. now apply located_placed. Qed.
Lemma placed_children ts gs i a : parted ts gs -> nth_error gs i = Some a -> placed ts (children a).
Proof. intros H Hi. destruct (parted_nth _ _ _ _ H Hi) as (t1 & t2 & t3 & -> & _ & H2 & _). apply placed_in. now apply located_children. Qed.
Lemma placed_both ts gs i j a b l m : parted ts gs -> nth_error gs i = Some a -> nth_error gs j = Some b -> i < j ->
  (forall t, located t a -> placed t l) -> (forall t, located t b -> placed t m) -> placed ts (l ++ m).
Proof.
  intros H Hi Hj L Hl Hm. destruct (parted_two ts gs i j a b H Hi Hj L) as (t1 & t2 & t3 & t4 & t5 & -> & H2 & H4).
  change (l ++ m) with ([] ++ l ++ m). apply placed_app; [apply placed_none|]. apply placed_app; [auto|]. apply placed_in. auto.
Qed.
Lemma parted_span ts gs s : parted ts gs -> toks_span gs = Val s -> spans ts s.
Proof.
  intros H E. unfold toks_span, tok_at in E. apply bind_val in E as (a & Ea & E). apply bind_val in E as (b & Eb & E). injection E as <-.
  destruct gs as [|g gs]; [discriminate|]. simpl in Ea. injection Ea as ->. inversion H as [|t a' us gs' Hl Hp]; subst.
  destruct gs as [|h gs].
  - simpl in Eb. injection Eb as <-. inversion Hp; subst. rewrite app_nil_r. rewrite <- surjective_pairing. now apply located_span.
  - assert (Eb' : nth_error (h :: gs) (List.length gs) = Some b). { cbn [List.length] in Eb. replace (S (S (List.length gs)) - 1) with (S (List.length gs)) in Eb by lia. cbn [nth_error] in Eb. destruct (nth_error (h :: gs) (List.length gs)); [now injection Eb as ->|discriminate]. }
    destruct (parted_nth _ _ _ _ Hp Eb') as (t1 & t2 & t3 & -> & _ & H2 & H3).
    assert (skipn (S (List.length gs)) (h :: gs) = []) as E by (apply skipn_all2; simpl; lia). rewrite E in H3. inversion H3; subst. rewrite app_nil_r.
    apply spans_cat; now apply located_span.
Qed.

(** ** the reductors *)
Definition keeps (f : list gramem -> res meta) : Prop := forall A ts gs m, parted ts gs -> f gs = Val m -> located ts (mkTok m A).
Lemma keeps_meta (a : list gramem -> res ast) :
  (forall A ts gs x s, parted ts gs -> a gs = Val x -> Forall (within ts) (references (mkTok (x, s) A)) /\ placed ts (children (mkTok (x, s) A))) ->
  keeps (fun gs => metaM (a gs) gs).
Proof.
  intros H A ts gs m Hp E. unfold metaM in E. apply bind_val in E as (x & Ex & E). apply bind_val in E as (s & Es & E). injection E as <-.
  destruct (H A ts gs x s Hp Ex) as [H1 H2]. constructor; auto; [now apply (parted_span _ gs)|]. apply Forall_forall. exact H1.
Qed.
Lemma tok_at_val gs i g : tok_at gs i = Val g -> nth_error gs i = Some g.
Proof. unfold tok_at. destruct (nth_error gs i); simpl; congruence. Qed.
Lemma tok_opt_val gs i o : tok_opt gs i = Val o -> match o with Some g => exists j, nth_error gs j = Some g | None => True end.
Proof.
  unfold tok_opt. destruct i as [i|]; intros E; apply bind_val in E as (g & Eg & E); injection E as <-; [|exact Logic.I]. apply tok_at_val in Eg. eauto.
Qed.
Ltac step H := let x := fresh "x" in let E := fresh "E" in apply bind_val in H as (x & E & H); try apply tok_at_val in E; try apply tok_opt_val in E.

Lemma keeps_item i o c d : keeps (red_item i o c d).
Proof.
  apply (keeps_meta (fun toks => do it <- tok_at toks i; do o <- tok_opt toks o; do c <- tok_opt toks c; do d <- tok_opt toks d; Val (ARuleItem it (is_some o) (option_map g_span d) (is_some c)))).
  intros A ts gs x s Hp E. step E. step E. step E. step E. injection E as <-. unfold references, children. cbn [g_ast tk_item fst]. split; [|eapply placed_one; eauto].
  destruct x3 as [g|]; simpl; [|constructor]. destruct E3 as (j & Ej). constructor; [|constructor]. eapply within_span; eauto.
Qed.
Lemma keeps_path0 : keeps red_path0.
Proof.
  apply (keeps_meta (fun toks => do ip <- tok_at toks 0; do ext <- tok_at toks 2; Val (AIdentPath (fst (g_span ip), snd (g_span ext))))).
  intros A ts gs x s Hp E. step E. step E. injection E as <-. unfold references, children. cbn [g_ast tk_item fst]. split; [|apply placed_none].
  constructor; [|constructor]. eapply (within_range _ _ 0 2); eauto.
Qed.
Lemma keeps_path1 : keeps red_path1.
Proof.
  apply (keeps_meta (fun toks => do t <- tok_at toks 0; Val (AIdentPath (g_span t)))).
  intros A ts gs x s Hp E. step E. injection E as <-. unfold references, children. cbn [g_ast tk_item fst]. split; [|apply placed_none].
  constructor; [|constructor]. eapply within_span; eauto.
Qed.
Lemma keeps_entry : keeps red_entry.
Proof.
  apply (keeps_meta (fun toks => do p <- tok_at toks 0; Val (AEntryPoint p))).
  intros A ts gs x s Hp E. step E. injection E as <-. unfold references, children. cbn [g_ast tk_item fst]. split; [constructor|eapply placed_one; eauto].
Qed.
Lemma keeps_rule01 cb : keeps (red_rule01 cb).
Proof.
  apply (keeps_meta (fun toks => do c <- tok_opt toks cb; do a <- tok_at toks 0; do vv <- match g_ast a with ARule vv => Val vv | _ => Panic P_unlisted end;
         do b <- tok_at toks 2; do v <- match g_ast b with ARulePipe v => Val v | _ => Panic P_unlisted end;
         Val (ARule (vv ++ [(v, match c with Some g => g_span g | None => (0, 0) end)])))).
  intros A ts gs x s Hp E. step E. step E. apply bind_val in E as (vv & Ev & E). step E. apply bind_val in E as (v & Ew & E). injection E as <-.
  destruct (g_ast x1) eqn:Ea; try discriminate. injection Ev as ->. destruct (g_ast x2) eqn:Eb; try discriminate. injection Ew as ->.
  unfold references, children. cbn [g_ast tk_item fst]. split.
  - rewrite map_app. apply Forall_app. split.
    + apply Forall_forall. intros y Hy. eapply (within_refs _ _ 0 x1); eauto. unfold references. now rewrite Ea.
    + constructor; [|constructor]. cbn [snd]. destruct x0 as [g|]; [destruct E0 as (j & Ej); eapply within_span; eauto|now left].
  - rewrite flat_map_app. simpl. rewrite app_nil_r. eapply (placed_both _ _ 0 2 x1 x2); eauto; intros t Hl; apply located_children in Hl; unfold children in Hl; [now rewrite Ea in Hl|now rewrite Eb in Hl].
Qed.
Lemma keeps_rule23 cb : keeps (red_rule23 cb).
Proof.
  apply (keeps_meta (fun toks => do c <- tok_opt toks cb; do a <- tok_at toks 0; do v <- match g_ast a with ARulePipe v => Val v | _ => Panic P_unlisted end;
         Val (ARule [(v, match c with Some g => g_span g | None => (0, 0) end)]))).
  intros A ts gs x s Hp E. step E. step E. apply bind_val in E as (v & Ew & E). injection E as <-. destruct (g_ast x1) eqn:Eb; try discriminate. injection Ew as ->.
  unfold references, children. cbn [g_ast tk_item fst]. split.
  - constructor; [|constructor]. cbn [snd]. destruct x0 as [g|]; [destruct E0 as (j & Ej); eapply within_span; eauto|now left].
  - simpl. rewrite app_nil_r. pose proof (placed_children _ _ 0 x1 Hp E1) as Hl. unfold children in Hl. now rewrite Eb in Hl.
Qed.
Lemma keeps_pipe0 : keeps red_pipe0.
Proof.
  apply (keeps_meta (fun toks => do item <- tok_at toks 1; do a <- tok_at toks 0; do v <- match g_ast a with ARulePipe v => Val v | _ => Panic P_unlisted end; Val (ARulePipe (v ++ [item])))).
  intros A ts gs x s Hp E. step E. step E. apply bind_val in E as (v & Ew & E). injection E as <-. destruct (g_ast x1) eqn:Eb; try discriminate. injection Ew as ->.
  unfold references, children. cbn [g_ast tk_item fst]. split; [constructor|].
  eapply (placed_both _ _ 0 1 x1 x0); eauto; intros t Hl; [apply located_children in Hl; unfold children in Hl; now rewrite Eb in Hl|now apply located_placed].
Qed.
Lemma keeps_pipe1 : keeps red_pipe1.
Proof.
  apply (keeps_meta (fun toks => do a <- tok_at toks 0; Val (ARulePipe [a]))).
  intros A ts gs x s Hp E. step E. injection E as <-. unfold references, children. cbn [g_ast tk_item fst]. split; [constructor|eapply placed_one; eauto].
Qed.
Lemma keeps_import : keeps red_import.
Proof.
  apply (keeps_meta (fun toks => do a <- tok_at toks 1; do b <- expect P_expect (nth_error toks (List.length toks - 1)); Val (AImport (fst (g_span a), snd (g_span b))))).
  intros A ts gs x s Hp E. step E. apply bind_val in E as (b & Eb & E). injection E as <-. unfold references, children. cbn [g_ast tk_item fst]. split; [|apply placed_none].
  constructor; [|constructor]. destruct (nth_error gs (List.length gs - 1)) as [b'|] eqn:Eb'; [|discriminate]. injection Eb as ->.
  eapply within_range; eauto. assert (nth_error gs 1 <> None) as N by congruence. apply nth_error_Some in N. lia.
Qed.
Lemma keeps_alias : keeps red_alias.
Proof.
  apply (keeps_meta (fun toks => do a <- tok_at toks 1; do b <- tok_at toks 2; Val (AAlias (g_span a) (g_span b)))).
  intros A ts gs x s Hp E. step E. step E. injection E as <-. unfold references, children. cbn [g_ast tk_item fst]. split; [|apply placed_none].
  constructor; [|constructor; [|constructor]]; eapply within_span; eauto.
Qed.
Lemma keeps_prog0 : keeps red_prog0.
Proof.
  apply (keeps_meta (fun toks => do ext <- tok_at toks 1; do a <- tok_at toks 0; do v <- match g_ast a with AProgram v => Val v | _ => Panic P_unlisted end; Val (AProgram (v ++ [ext])))).
  intros A ts gs x s Hp E. step E. step E. apply bind_val in E as (v & Ew & E). injection E as <-. destruct (g_ast x1) eqn:Eb; try discriminate. injection Ew as ->.
  unfold references, children. cbn [g_ast tk_item fst]. split; [constructor|].
  eapply (placed_both _ _ 0 1 x1 x0); eauto; intros t Hl; [apply located_children in Hl; unfold children in Hl; now rewrite Eb in Hl|now apply located_placed].
Qed.
Lemma keeps_prog3 : keeps red_prog3.
Proof.
  apply (keeps_meta (fun toks => do a <- tok_at toks 0; Val (AProgram [a]))).
  intros A ts gs x s Hp E. step E. injection E as <-. unfold references, children. cbn [g_ast tk_item fst]. split; [constructor|eapply placed_one; eauto].
Qed.
Lemma src_ref_in a s : src_ref (g_ast a) = Some s -> In s (references a).
Proof. unfold references. destruct (g_ast a); try discriminate. intros [= ->]. now left. Qed.
Lemma keeps_decl : keeps red_decl.
Proof.
  apply (keeps_meta (fun toks => do a <- tok_at toks 0; do ident <- expect P_expect (src_ref (g_ast a)); do b <- tok_at toks 2; do ty <- expect P_expect (src_ref (g_ast b));
         do c <- tok_at toks 4; do v <- match g_ast c with ARule v => Val v | _ => Panic P_unlisted end; Val (ARuleDecl ident ty v))).
  intros A ts gs x s Hp E. step E. apply bind_val in E as (id & Ei & E). step E. apply bind_val in E as (ty & Et & E). step E. apply bind_val in E as (v & Ew & E). injection E as <-.
  destruct (g_ast x2) eqn:Eb; try discriminate. injection Ew as ->.
  destruct (src_ref (g_ast x0)) as [i'|] eqn:Ei'; [|discriminate]. injection Ei as ->. destruct (src_ref (g_ast x1)) as [t'|] eqn:Et'; [|discriminate]. injection Et as ->.
  unfold references, children. cbn [g_ast tk_item fst]. split.
  - constructor; [eapply (within_refs _ _ 0 x0); eauto using src_ref_in|]. constructor; [eapply (within_refs _ _ 2 x1); eauto using src_ref_in|].
    apply Forall_forall. intros y Hy. eapply (within_refs _ _ 4 x2); eauto. unfold references. now rewrite Eb.
  - pose proof (placed_children _ _ 4 x2 Hp E2) as Hl. unfold children in Hl. now rewrite Eb in Hl.
Qed.
Lemma reds_keep A : Forall keeps (reds A).
Proof.
  destruct A; repeat (apply Forall_nil || apply Forall_cons); auto using keeps_item, keeps_path0, keeps_path1, keeps_entry, keeps_rule01, keeps_rule23, keeps_pipe0, keeps_pipe1, keeps_import, keeps_alias, keeps_prog0, keeps_prog3, keeps_decl.
Qed.

(** ** the trees *)
Lemma ev_located :
  (forall X w it, evals rules wop_maps X w it -> forall ts, w = lex ts -> exists g, it = wrap g /\ located ts g) /\
  (forall Xs w its, evals_seq rules wop_maps Xs w its -> forall ts, w = lex ts -> exists gs, its = map wrap gs /\ parted ts gs /\ sems Xs ts gs).
Proof.
  apply evals_mut.
  - intros tok Ht ts E. destruct ts as [|[X s] [|? ?]]; try discriminate. simpl in E. injection E as ->. exists (leafg X s). split; [reflexivity|].
    constructor; [exists (X, s), (X, s); repeat split; apply surjective_pairing|intros y []|apply placed_none].
  - intros A i rhs w its fs f Hp _ IH Hm Hf ts E. destruct (IH ts E) as (gs & -> & Hq & Hs). apply wop_prod_inv in Hp. destruct Hp as (ps & Hi & Hn).
    rewrite (reds_get _ _ Hi) in Hm. injection Hm as <-. rewrite nth_error_map in Hf. destruct (nth_error (reds A) i) as [r|] eqn:Er; [|discriminate]. injection Hf as <-.
    destruct (sem_any A ps i rhs ts gs r Hi Hn Hs Er) as (m & Em & _). exists (mkTok m A). split.
    + unfold wrap, lift. cbn [tk_item tk_ty]. rewrite unwrap_wrap. cbn [bind]. now rewrite Em.
    + pose proof (reds_keep A) as Hk. rewrite Forall_forall in Hk. apply nth_error_In in Er. exact (Hk _ Er A ts gs m Hq Em).
  - intros ts E. destruct ts; [|discriminate]. exists []. repeat split; constructor.
  - intros X Xs w1 w2 it its He IH1 _ IH2 ts E. destruct (lex_app_inv _ _ _ E) as (t1 & t2 & -> & E1 & E2).
    destruct (IH1 _ E1) as (g & -> & H1), (IH2 _ E2) as (gs & -> & H2 & H3). exists (g :: gs). split; [reflexivity|]. split; [now constructor|].
    destruct (proj1 ev_sem _ _ _ He t1 E1) as (g' & Eg & Hs). assert (g' = g) as -> by (destruct g, g'; unfold wrap in Eg; simpl in Eg; congruence). exists t1, t2. auto.
Qed.

(** ** what is inside *)
Lemma placed_child ts gs : placed ts gs -> forall g, In g gs -> exists t1 t2 t3, ts = t1 ++ t2 ++ t3 /\ located t2 g.
Proof.
  induction 1 as [|t ts gs H IH|ts g us gs Hl Hp IH]; intros h Hh; [easy|..].
  - destruct (IH h Hh) as (t1 & t2 & t3 & -> & Hx). now exists (t :: t1), t2, t3.
  - destruct Hh as [->|Hh]; [now exists [], ts, us|]. destruct (IH h Hh) as (t1 & t2 & t3 & -> & Hx). exists (ts ++ t1), t2, t3. split; [now rewrite app_assoc|auto].
Qed.
Lemma located_inside h g : inside h g -> forall ts, located ts g -> exists t1 t2 t3, ts = t1 ++ t2 ++ t3 /\ located t2 h.
Proof.
  induction 1 as [|g g' Hc Hi IH]; intros ts H; [exists [], ts, []; split; [now rewrite app_nil_r|auto]|].
  destruct (placed_child _ _ (located_children _ _ H) _ Hc) as (t1 & t2 & t3 & -> & Hl). destruct (IH _ Hl) as (u1 & u2 & u3 & -> & Hx).
  exists (t1 ++ u1), u2, (u3 ++ t3). split; [now rewrite <- !app_assoc|auto].
Qed.
Lemma inside_within ts g h : located ts g -> inside h g -> within ts (g_span h) /\ Forall (within ts) (references h).
Proof.
  intros H Hi. destruct (located_inside _ _ Hi _ H) as (t1 & t2 & t3 & -> & Hl). split.
  - apply within_in. right. exists [], t2, []. split; [now rewrite app_nil_r|now apply located_span].
  - apply Forall_forall. intros s Hs. apply within_in. eapply located_refs; eauto.
Qed.
