(** The statements wop writes, read as Rust. *)
From Coq Require Import List Bool Arith Lia Ascii String DecimalNat DecimalString DecimalFacts.
From Verif Require Import BTree Model Strings Wop WopSpec WopText WopTextSpec WopExport WopTextP Base RustSpec.
Import ListNotations.
Local Open Scope string_scope.
Local Open Scope list_scope.
Local Open Scope nat_scope.

(** ** Lexing *)
Definition sep_start (s : string) : bool := match s with "" => true | String c _ => negb (ident_char c) end.
Fixpoint sep_end (s : string) : bool := match s with "" => true | String c "" => negb (ident_char c) | String _ s' => sep_end s' end.

Lemma rlex_start w t : sep_start t = true -> rlex w t = word_tok w ++ rlex "" t.
Proof. destruct t as [|c t]; simpl; intros H; [now rewrite List.app_nil_r|]. apply negb_true_iff in H. now rewrite H. Qed.
Lemma rlex_word n : forall w t, all_chars ident_char n = true -> rlex w (n ++ t) = rlex (w ++ n) t.
Proof.
  induction n as [|c n IH]; intros w t H; simpl; [now rewrite sapp_nil|]. cbn [all_chars] in H. apply andb_true_iff in H as [H1 H2]. rewrite H1, IH by assumption. f_equal.
  now rewrite sassoc.
Qed.
Lemma rlex_name n t : all_chars ident_char n = true -> sep_start t = true -> rlex "" (n ++ t) = word_tok n ++ rlex "" t.
Proof. intros H1 H2. rewrite rlex_word by assumption. now apply rlex_start. Qed.
Lemma rlex_end p : forall w t, p <> "" -> sep_end p = true -> rlex w (p ++ t) = rlex w p ++ rlex "" t.
Proof.
  induction p as [|c p IH]; intros w t N H; [now destruct N|]. destruct p as [|c' p].
  - simpl in *. apply negb_true_iff in H. rewrite H, List.app_nil_r. now rewrite <- List.app_assoc.
  - change (sep_end (String c' p) = true) in H. change (String c (String c' p) ++ t)%string with (String c (String c' p ++ t)).
    cbn [rlex] in IH |- *. destruct (ident_char c) eqn:E; [now rewrite <- IH|]. rewrite <- !List.app_assoc. do 2 f_equal. now rewrite <- (IH "").
Qed.

Lemma number_uint d : forall n, number n (NilEmpty.string_of_uint d) = Nat.of_uint_acc d n.
Proof. induction d as [|d IH|d IH|d IH|d IH|d IH|d IH|d IH|d IH|d IH|d IH]; intros n; [reflexivity|..]; cbn [NilEmpty.string_of_uint number Nat.of_uint_acc]; rewrite IH; f_equal; rewrite Nat.tail_mul_spec; cbn; lia. Qed.
Lemma digits_number n : number 0 (digits n) = n.
Proof.
  unfold digits, NilZero.string_of_uint. rewrite <- (Unsigned.of_to n) at 2. unfold Nat.of_uint. rewrite <- number_uint. destruct (Nat.to_uint n); reflexivity.
Qed.
Lemma digits_tok n : word_tok (digits n) = [RNum n].
Proof.
  pose proof (digits_number n) as E. unfold word_tok. unfold digits, NilZero.string_of_uint in *. destruct (Nat.to_uint n); simpl in *; now rewrite E.
Qed.
Lemma digit_ident c : digit c = true -> ident_char c = true.
Proof. unfold digit, ident_char. intros ->. reflexivity. Qed.
Lemma all_chars_impl p q s : (forall c, p c = true -> q c = true) -> all_chars p s = true -> all_chars q s = true.
Proof. intros H. induction s as [|c s IH]; [easy|]. cbn [all_chars]. rewrite !andb_true_iff. intros [? ?]. auto. Qed.
Lemma digits_ident n : all_chars ident_char (digits n) = true.
Proof. apply (all_chars_impl digit); [exact digit_ident|apply digits_chars]. Qed.
Lemma rlex_digits n t : sep_start t = true -> rlex "" (digits n ++ t) = RNum n :: rlex "" t.
Proof. intros H. rewrite rlex_name by (auto using digits_ident). now rewrite digits_tok. Qed.
Lemma rlex_id n t : is_name n = true -> sep_start t = true -> rlex "" (n ++ t) = RId n :: rlex "" t.
Proof.
  intros H Ht. unfold is_name in H. apply andb_true_iff in H as [H H3]. apply andb_true_iff in H as [H1 H2]. rewrite rlex_name by assumption.
  unfold word_tok. destruct n as [|c n]; [easy|]. apply negb_true_iff in H1, H3. now rewrite H1, H3.
Qed.

(** ** Parsing *)
Definition fetch_expr (b : binding) (f : option nat) (i : nat) : expr :=
  let e := match f with None => EIndex (EVar "toks") i | Some f => ERange (EVar "toks") i f end in
  if bd_clone b then ECall e (match bd_final b with None => "clone" | Some _ => "to_vec" end) else ERef e.
Definition stmts_of (b : binding) : list stmt :=
  let n := bd_name b in
  match bd_optional b with
  | None => [SLet false n (fetch_expr b (bd_final b) (bd_index b))]
  | Some true => [SLet false n (ESome (fetch_expr b (bd_final b) (bd_index b)))]
  | Some false => [SLet true n (ESome (fetch_expr b None 0)); SAssign n ENone; SLet false n (EVar n)]
  end.
Definition index_toks (f : option nat) (i : nat) : list rtok := match f with None => [RNum i] | Some f => [RNum i; RSym "."; RSym "."; RNum f] end.
Definition fetch_toks (b : binding) (f : option nat) (i : nat) : list rtok :=
  (if bd_clone b then [] else [RSym "&"]) ++ [RId "toks"; RSym "["] ++ index_toks f i ++
  RSym "]" :: (if bd_clone b then [RSym "."; RId (match bd_final b with None => "clone" | Some _ => "to_vec" end); RSym "("; RSym ")"] else []).
Definition stmt_toks (b : binding) : list rtok :=
  let n := bd_name b in
  match bd_optional b with
  | None => [RKey "let"; RId n; RSym "="] ++ fetch_toks b (bd_final b) (bd_index b) ++ [RSym ";"]
  | Some true => [RKey "let"; RId n; RSym "="; RKey "Some"; RSym "("] ++ fetch_toks b (bd_final b) (bd_index b) ++ [RSym ")"; RSym ";"]
  | Some false => [RKey "let"; RKey "mut"; RId n; RSym "="; RKey "Some"; RSym "("] ++ fetch_toks b None 0 ++ [RSym ")"; RSym ";"; RId n; RSym "="; RKey "None"; RSym ";";
      RKey "let"; RId n; RSym "="; RId n; RSym ";"]
  end.

Ltac lit := match goal with |- context [rlex "" (?p ++ ?t)] => match p with String _ _ => rewrite (rlex_end p "" t) by (first [discriminate|reflexivity]); let v := eval vm_compute in (rlex "" p) in change (rlex "" p) with v end end.
Lemma lex_stmt b t : is_name (bd_name b) = true -> rlex "" (binding_text b ++ t) = stmt_toks b ++ rlex "" t.
Proof.
  intros H. unfold binding_text, stmt_toks, fetch_toks, index_toks. destruct b as [n o i f c]. cbn [bd_name bd_optional bd_index bd_final bd_clone] in *.
  change (String (ascii_of_nat 10) "") with nl.
  destruct o as [[]|], f as [f|], c; rewrite ?sassoc;
    repeat first [match goal with |- context [rlex "" ("0" ++ ?t)] => change (rlex "" ("0" ++ t)) with (rlex "" (digits 0 ++ t)) end | lit | rewrite (rlex_id n) by (first [assumption|reflexivity]) | rewrite rlex_digits by reflexivity | match goal with |- context [rlex "" (nl ++ ?t)] => change (rlex "" (nl ++ t)) with (rlex "" t) end];
    cbn [List.app]; reflexivity.
Qed.

Lemma lex_stmts bs : Forall (fun b => is_name (bd_name b) = true) bs -> rlex "" (String.concat "" (map binding_text bs)) = flat_map stmt_toks bs.
Proof. induction 1 as [|b bs H _ IH]; [reflexivity|]. rewrite map_cons, sconcat_cons. cbn [flat_map]. now rewrite lex_stmt, IH. Qed.

Lemma parse_stmt b r : exists n, n <= List.length (stmt_toks b) /\ forall m, read_stmts (n + m) (stmt_toks b ++ r) = match read_stmts m r with Some l => Some (stmts_of b ++ l) | None => None end.
Proof.
  destruct b as [n o i f c]. unfold stmt_toks, stmts_of, fetch_toks, index_toks, fetch_expr. cbn [bd_name bd_optional bd_index bd_final bd_clone].
  destruct o as [[]|].
  - exists 1. split; [destruct f, c; simpl; lia|]. intros m. destruct f, c; cbn -[read_stmts]; cbn [read_stmts Nat.add]; cbn -[read_stmts]; reflexivity.
  - exists 3. split; [destruct f, c; simpl; lia|]. intros m. destruct f, c; cbn -[read_stmts]; cbn [read_stmts Nat.add]; cbn -[read_stmts]; destruct (read_stmts m r); reflexivity.
  - exists 1. split; [destruct f, c; simpl; lia|]. intros m. destruct f, c; cbn -[read_stmts]; cbn [read_stmts Nat.add]; cbn -[read_stmts]; reflexivity.
Qed.
Lemma read_stmts_more n : forall m ts l, n <= m -> read_stmts n ts = Some l -> read_stmts m ts = Some l.
Proof.
  induction n as [|n IH]; intros m ts l H E; destruct ts as [|t ts]; try (destruct m; exact E); [discriminate|]. destruct m as [|m]; [lia|].
  cbn [read_stmts] in *. destruct (read_stmt (t :: ts)) as [[s r]|]; [|discriminate]. destruct (read_stmts n r) as [l'|] eqn:E'; [|discriminate]. now rewrite (IH m r l') by (auto; lia).
Qed.
Lemma parse_stmts bs : read_stmts (List.length (flat_map stmt_toks bs)) (flat_map stmt_toks bs) = Some (flat_map stmts_of bs).
Proof.
  induction bs as [|b bs IH]; [reflexivity|]. cbn [flat_map]. destruct (parse_stmt b (flat_map stmt_toks bs)) as (n & Hn & E). rewrite app_length.
  eapply read_stmts_more; [|rewrite (E (List.length (flat_map stmt_toks bs))), IH; reflexivity]. lia.
Qed.
Theorem read_emitted bs : Forall (fun b => is_name (bd_name b) = true) bs -> read_block (String.concat "" (map binding_text bs)) = Some (flat_map stmts_of bs).
Proof. intros H. unfold read_block. rewrite lex_stmts by assumption. eapply read_stmts_more; [|apply parse_stmts]. lia. Qed.

(** ** Running *)
Section Run.
Context {A : Type}.
Lemma eval_fetch (env : vars A) m toks b f i : find_var "toks" env = Some (m, VList toks) -> (bd_clone b = true -> bd_final b = None -> f = None) -> (bd_clone b = true -> bd_final b <> None -> f <> None) ->
  eval env (fetch_expr b f i) = do x <- fetch toks i f; Val (as_value x).
Proof.
  intros H N1 N2. unfold fetch_expr, fetch. destruct f as [f|].
  - destruct (bd_clone b); cbn; rewrite H; cbn; destruct ((i <=? f) && (f <=? List.length toks)); cbn; auto. destruct (bd_final b); [reflexivity|]. now discriminate N1.
  - destruct (bd_clone b); cbn; rewrite H; cbn; destruct (nth_error toks i); cbn; auto. destruct (bd_final b); [|reflexivity]. now destruct N2.
Qed.
Lemma find_set x y (v : value A) env : find_var y (set_var x v env) = if String.eqb y x then match find_var x env with Some (m, _) => Some (m, v) | None => None end else find_var y env.
Proof.
  induction env as [|[z w] env IH]; cbn; [now destruct (String.eqb y x)|]. destruct (String.eqb_spec x z) as [->|N]; cbn.
  - destruct (String.eqb_spec y z); [now destruct w|reflexivity].
  - destruct (String.eqb_spec y z) as [->|M]; [|apply IH]. destruct (String.eqb_spec z x); [congruence|reflexivity].
Qed.
(** what one statement does *)
Lemma exec_stmt (env : vars A) m toks b : find_var "toks" env = Some (m, VList toks) -> stmt_type b <> None ->
  match run_binding toks b with
  | Val v => exists env', foldM exec (stmts_of b) env = Val env' /\ forall y, find_var y env' = if String.eqb y (bd_name b) then Some (false, as_value v) else find_var y env
  | Panic p => foldM exec (stmts_of b) env = Panic p
  | Fuel => False
  end.
Proof.
  intros H T. unfold run_binding, stmts_of. destruct (bd_optional b) as [[]|] eqn:Eo.
  - cbn [foldM exec eval]. rewrite (eval_fetch env m toks) by (auto; congruence). unfold fetch. destruct (bd_final b).
    + destruct ((bd_index b <=? n) && (n <=? List.length toks)); cbn; [|reflexivity]. eexists. split; [reflexivity|]. intros y. cbn [find_var fst snd as_value]. now destruct (String.eqb y (bd_name b)).
    + destruct (nth_error toks (bd_index b)); cbn; [|reflexivity]. eexists. split; [reflexivity|]. intros y. cbn [find_var fst snd as_value]. now destruct (String.eqb y (bd_name b)).
  - cbn [foldM exec eval]. assert (K : bd_clone b = true -> bd_final b = None). { unfold stmt_type in T. rewrite Eo in T. destruct (bd_final b), (bd_clone b); congruence. }
    rewrite (eval_fetch env m toks) by (auto; intros Hc Hf; destruct (Hf (K Hc))). unfold fetch. destruct (nth_error toks 0); cbn; [|reflexivity]. do 3 (rewrite ?String.eqb_refl; cbn).
    eexists. split; [reflexivity|]. intros y. do 2 (cbn; rewrite ?String.eqb_refl). now destruct (String.eqb y (bd_name b)).
  - cbn [foldM exec eval]. rewrite (eval_fetch env m toks) by (auto; congruence). unfold fetch. destruct (bd_final b).
    + destruct ((bd_index b <=? n) && (n <=? List.length toks)); cbn; [|reflexivity]. eexists. split; [reflexivity|]. intros y. cbn [find_var fst snd as_value]. now destruct (String.eqb y (bd_name b)).
    + destruct (nth_error toks (bd_index b)); cbn; [|reflexivity]. eexists. split; [reflexivity|]. intros y. cbn [find_var fst snd as_value]. now destruct (String.eqb y (bd_name b)).
Qed.
(** the statements of a reductor, none of them binding [toks] *)
Lemma exec_stmts toks bs : Forall (fun b => bd_name b <> "toks" /\ stmt_type b <> None) bs -> forall (env : vars A) m vals, find_var "toks" env = Some (m, VList toks) -> run_all toks bs = Val vals ->
  exists env', foldM exec (flat_map stmts_of bs) env = Val env' /\ find_var "toks" env' = Some (m, VList toks) /\
    forall y, find_var y env' = match find (fun x => String.eqb y (fst x)) (rev vals) with Some x => Some (false, as_value (snd x)) | None => find_var y env end.
Proof.
  induction 1 as [|b bs [N T] _ IH]; intros env m vals H E.
  - injection E as <-. exists env. auto.
  - cbn [run_all] in E. pose proof (exec_stmt env m toks b H T) as X. destruct (run_binding toks b) as [v| |]; cbn in E; try discriminate.
    destruct (String.eqb_spec (bd_name b) "toks") as [|_]; [contradiction|]. destruct (run_all toks bs) as [vals'| |] eqn:E'; cbn in E; try discriminate. injection E as <-.
    destruct X as (env1 & X1 & X2). destruct (IH env1 m vals') as (env' & Y1 & Y2 & Y3); [|reflexivity|].
    { rewrite X2. destruct (String.eqb_spec "toks" (bd_name b)); [congruence|assumption]. }
    exists env'. split; [|split; [assumption|]].
    + cbn [flat_map]. rewrite foldM_app, X1. exact Y1.
    + intros y. rewrite Y3. cbn [rev]. clear - X2. induction (rev vals') as [|x l IHl]; cbn; [rewrite X2; now destruct (String.eqb y (bd_name b)) | destruct (String.eqb y (fst x)); [reflexivity|exact IHl]].
Qed.
End Run.

Lemma filter_rev' {A} (p : A -> bool) l : filter p (rev l) = rev (filter p l).
Proof. induction l as [|a l IH]; [reflexivity|]. cbn. rewrite filter_app, IH. cbn. destruct (p a); [reflexivity|apply List.app_nil_r]. Qed.
Section E.
Variable text : span -> string.
Variable order : prod_build -> list prod_build -> list span -> list span.
Hypothesis Ho : iterates order.
Variable dbg : bool.
Theorem emits_text ts alt r bs c : emits text order dbg ts alt r bs c -> good text (fst alt) -> forallb solid (fst alt) = true -> fst r <> [] ->
  (forall n, In n (pipe_names text (fst alt)) -> is_name n = true /\ n <> "toks") ->
  forall A (toks : list A), List.length toks = List.length (fst r) ->
  exists env, run_text (String.concat "" (map binding_text bs)) toks = Val env /\
    (forall n, In n (pipe_names text (fst alt)) -> exists v, find_var n env = Some (false, as_value v) /\ expected text (fst alt) toks (snd r) n = Val v) /\
    (forall n, ~ In n (pipe_names text (fst alt)) -> find_var n env = if String.eqb n "toks" then Some (false, VList toks) else None).
Proof.
  intros He Hg Hs Hne Hn A toks Hl. assert (Hk : ~ In "toks" (pipe_names text (fst alt))) by (intros K; now apply Hn in K).
  destruct (emits_runs text order Ho dbg _ _ _ _ _ He Hg Hne Hk A toks Hl) as (vals & Ev & H1 & H2).
  destruct (emits_right text order dbg Ho _ _ _ _ _ He) as (_ & Hb & Ht & _). destruct (Hb Hg) as [Hb1 _]. specialize (Ht Hs).
  unfold run_text. rewrite read_emitted by (apply Forall_forall; intros b Hin; now apply Hn, Hb1).
  destruct (exec_stmts toks bs) with (env := [("toks", (false, VList toks))]) (m := false) (vals := vals) as (env' & E1 & E2 & E3); auto.
  { apply Forall_forall. intros b Hin. split; [now apply Hn, Hb1|auto]. }
  exists env'. split; [exact E1|]. split.
  - intros n Hin. destruct (H2 n Hin) as (v & Ef & Ex). exists v. split; [|exact Ex]. rewrite E3.
    assert (F : filter (fun x : string * bound A => String.eqb (fst x) n) (rev vals) = [(n, v)]).
    { rewrite (filter_rev' _ vals). now rewrite Ef. }
    clear - F. induction (rev vals) as [|x l IH]; [discriminate|]. cbn in F |- *. rewrite (String.eqb_sym n). destruct (String.eqb (fst x) n); [now injection F as -> _|auto].
  - intros n Hin. rewrite E3. destruct (find _ (rev vals)) as [x|] eqn:Ef.
    + apply find_some in Ef as [Hx Hy]. apply String.eqb_eq in Hy as ->. destruct Hin. apply H1, in_map. now apply in_rev.
    + cbn. now destruct (String.eqb n "toks").
Qed.
End E.
