(** The [lrp] binary (C98) *)
From Coq Require Import List Bool Arith NArith Ascii String Lia.
From Verif Require Import BTree Strings Model Show Base Spec SpecP GrammarP LR Sound Interface Wrap Mono Total Final Check Export Examples ShowP Trace TraceSpec TraceP TraceRow Bundled Binary BinarySpec.
Import ListNotations.
Local Open Scope list_scope.

(** ** trimming *)
Lemma is_space_ok c : is_space c = true <-> space c.
Proof.
  split.
  - destruct c as [[] [] [] [] [] [] [] []]; vm_compute; intros H; try discriminate; tauto.
  - intros H. repeat (destruct H as [<-|H]; [reflexivity|]). destruct H.
Qed.
Lemma space_dec c : {space c} + {~ space c}.
Proof. destruct (is_space c) eqn:E; [left; now apply is_space_ok|right; intros H; apply is_space_ok in H; congruence]. Qed.

Lemma trim_start_spec l : exists a, l = a ++ trim_start l /\ Forall space a /\ (forall c w', trim_start l = c :: w' -> ~ space c).
Proof.
  induction l as [|c l (a & E & Ha & Hc)]; [exists []; repeat split; auto; discriminate|]. cbn [trim_start]. destruct (is_space c) eqn:Es.
  - exists (c :: a). split; [simpl; congruence|]. split; [constructor; auto; now apply is_space_ok|auto].
  - exists []. split; auto. split; auto. intros c' w' [= <- <-] H. apply is_space_ok in H. congruence.
Qed.

Lemma trim_spec line : trimmed line (trim line).
Proof.
  unfold trim. destruct (trim_start_spec line) as (a & E & Ha & Hc). destruct (trim_start_spec (rev (trim_start line))) as (b & E2 & Hb & Hc2).
  set (w := trim_start (rev (trim_start line))) in *. assert (trim_start line = rev w ++ rev b) as E3.
  { rewrite <- rev_app_distr, <- E2. now rewrite rev_involutive. }
  exists a, (rev b). rewrite <- E3. split; auto. split; auto. split; [now apply Forall_rev|]. split.
  - intros c w' Ew. apply (Hc c (w' ++ rev b)). rewrite E3, Ew. reflexivity.
  - intros c w' Ew. apply (Hc2 c (rev w')). rewrite <- (rev_involutive w), Ew, rev_app_distr. reflexivity.
Qed.

Lemma trimmed_fun line w1 w2 : trimmed line w1 -> trimmed line w2 -> w1 = w2.
Proof.
  assert (forall a1 a2 r1 r2, a1 ++ r1 = a2 ++ r2 -> Forall space a1 -> Forall space a2 -> (forall c w, r1 = c :: w -> space c -> Forall space r1) ->
    (forall c w, r2 = c :: w -> space c -> Forall space r2) -> r1 = r2 \/ (Forall space r1 /\ Forall space r2)) as H0.
  { induction a1 as [|x a1 IH]; intros [|y a2] r1 r2 E H1 H2 G1 G2; simpl in E; auto.
    - right. subst r1. assert (Forall space (y :: a2 ++ r2)) as H by (eapply G1; [reflexivity|now inversion H2]). split; auto.
      apply (Forall_app space (y :: a2) r2). exact H.
    - right. subst r2. assert (Forall space (x :: a1 ++ r1)) as H by (eapply G2; [reflexivity|now inversion H1]). split; auto.
      apply (Forall_app space (x :: a1) r1). exact H.
    - injection E as -> E. inversion H1; inversion H2; subst. eapply IH; eauto. }
  intros (a1 & b1 & E1 & A1 & B1 & C1 & D1) (a2 & b2 & E2 & A2 & B2 & C2 & D2).
  assert (forall w b, Forall space b -> (forall c w', w = c :: w' -> ~ space c) -> forall c u, w ++ b = c :: u -> space c -> Forall space (w ++ b)) as G.
  { intros [|c0 w0] b Hb Hw c u E Hc; [exact Hb|]. simpl in E. injection E as -> _. exfalso. eapply Hw; eauto. }
  assert (forall w b, (forall c w', w = c :: w' -> ~ space c) -> Forall space (w ++ b) -> w = []) as N.
  { intros [|c w] b Hw H; auto. inversion H; subst. exfalso. eapply Hw; eauto. }
  rewrite E1 in E2. destruct (H0 _ _ _ _ E2 A1 A2 (G w1 b1 B1 C1) (G w2 b2 B2 C2)) as [E|[F1 F2]].
  - assert (rev b1 ++ rev w1 = rev b2 ++ rev w2) as E' by (rewrite <- !rev_app_distr; now rewrite E).
    assert (forall w : list ascii, (forall c w', w = w' ++ [c] -> ~ space c) -> forall c u, rev w = c :: u -> space c -> Forall space (rev w)) as G2.
    { intros w Hw c u Ew Hc. exfalso. apply (Hw c (rev u)); auto. rewrite <- (rev_involutive w), Ew. reflexivity. }
    assert (forall w : list ascii, (forall c w', w = w' ++ [c] -> ~ space c) -> Forall space (rev w) -> w = []) as N2.
    { intros w Hw H. destruct (rev w) as [|c u] eqn:Ew; [rewrite <- (rev_involutive w), Ew; reflexivity|]. exfalso. inversion H; subst. eapply Hw; eauto.
      rewrite <- (rev_involutive w), Ew. reflexivity. }
    destruct (H0 _ _ _ _ E' (Forall_rev B1) (Forall_rev B2) (G2 w1 D1) (G2 w2 D2)) as [E3|[F1 F2]].
    + rewrite <- (rev_involutive w1), E3. apply rev_involutive.
    + rewrite (N2 w1 D1 F1), (N2 w2 D2 F2). reflexivity.
  - rewrite (N w1 b1 C1 F1), (N w2 b2 C2 F2). reflexivity.
Qed.

(** ** tokens *)
Definition str (c : ascii) : string := String c EmptyString.
Lemma known_term c : known c <-> In (str c) main_terminals.
Proof.
  change main_terminals with (map str ["("; ")"; "["; "]"; "c"; "d"; "{"; "}"]%char). rewrite in_map_iff. unfold known, str. split.
  - intros H. exists c. split; auto. simpl in *. tauto.
  - intros (x & [= ->] & H). simpl in *. tauto.
Qed.
Lemma find_str c : find (eqb (str c)) main_terminals = (if in_dec ascii_dec c ["["; "]"; "("; ")"; "{"; "}"; "d"; "c"]%char then Some (str c) else None).
Proof.
  destruct (in_dec ascii_dec c _) as [H|H].
  - apply known_term in H. destruct (find (eqb (str c)) main_terminals) eqn:E.
    + apply find_some in E as [_ E]. apply eqb_eq in E. now rewrite E.
    + apply (find_none _ _ E) in H. rewrite eqb_refl in H. discriminate.
  - destruct (find (eqb (str c)) main_terminals) eqn:E; auto. apply find_some in E as [Hi E]. apply eqb_eq in E. subst s. apply known_term in Hi. contradiction.
Qed.

Lemma input_known line : Forall known (trim line) -> main_input line = Val (map (mkTok tt) (map str (trim line))).
Proof.
  unfold main_input. induction 1 as [|c l Hc _ IH]; [reflexivity|]. cbn [mapM map]. fold (str c). rewrite find_str.
  destruct (in_dec ascii_dec c _) as [_|n]; [|contradiction]. cbn [expect bind]. rewrite IH. reflexivity.
Qed.
Lemma input_unknown line : ~ Forall known (trim line) -> main_input line = Panic P_expect.
Proof.
  unfold main_input. induction (trim line) as [|c l IH]; intros H; [destruct H; constructor|]. cbn [mapM]. fold (str c). rewrite find_str.
  destruct (in_dec ascii_dec c _) as [Hi|n]; [|reflexivity]. cbn [expect bind]. rewrite IH; [reflexivity|]. intros F. apply H. now constructor.
Qed.

(** ** the language *)
Notation R := (grammar_map main_rules).
Notation pairs_ := (list (ascii * ascii)).
Definition opens (u : pairs_) : list string := map (fun p => str (fst p)) u.
Definition closes (u : pairs_) : list string := rev (map (fun p => str (snd p)) u).
Definition brackets (u : pairs_) : Prop := Forall (fun p => bracket (fst p) (snd p)) u.

Lemma nested_pairs w : nested w <-> exists u, u <> [] /\ brackets u /\ w = map fst u ++ rev (map snd u).
Proof.
  split.
  - induction 1 as [o c H|o w c H _ (u & Hu & Hb & ->)].
    + exists [(o, c)]. split; [discriminate|]. split; [repeat constructor; auto|reflexivity].
    + exists ((o, c) :: u). split; [discriminate|]. split; [constructor; auto|]. simpl. now rewrite app_assoc.
  - intros (u & Hu & Hb & ->). induction Hb as [|[o c] u H Hb IH]; [congruence|]. simpl in *. destruct u as [|p u].
    + now constructor.
    + rewrite app_assoc. apply nested_in; auto. apply IH. discriminate.
Qed.

Lemma R_wf : wf_rules R. Proof. apply grammar_map_wf. Qed.
Lemma R_prods A i rhs : prod_at R A i rhs -> (A = "'S"%string /\ rhs = ["S"%string]) \/
  (A = "S"%string /\ exists o c, bracket o c /\ (rhs = [str o; str c] \/ rhs = [str o; "S"%string; str c])).
Proof.
  intros H. apply (prods_in _ R_wf) in H. vm_compute in H.
  repeat (destruct H as [[= <- <- <-]|H]; [first [left; split; reflexivity|right; split; [reflexivity|]];
    first [exists "("%char, ")"%char; split; [constructor|auto; fail]|exists "["%char, "]"%char; split; [constructor|auto; fail]|exists "{"%char, "}"%char; split; [constructor|auto; fail]]|]).
  destruct H.
Qed.
Ltac pick_prod := apply (prods_in _ R_wf); vm_compute; repeat (first [left; reflexivity|right]).
Lemma R_start : prod_at R "'S"%string 0 ["S"%string]. Proof. pick_prod. Qed.
Lemma R_one o c : bracket o c -> exists i, prod_at R "S"%string i [str o; str c].
Proof. destruct 1; [exists 0|exists 2|exists 4]; pick_prod. Qed.
Lemma R_in o c : bracket o c -> exists i, prod_at R "S"%string i [str o; "S"%string; str c].
Proof. destruct 1; [exists 1|exists 3|exists 5]; pick_prod. Qed.

Lemma bracket_term o c : bracket o c -> term R (str o) /\ term R (str c).
Proof. destruct 1; split; apply nonterm_b_false; reflexivity. Qed.
Lemma known_terms w : Forall known w -> Forall (term R) (map str w).
Proof.
  induction 1 as [|c w H _ IH]; constructor; auto. apply nonterm_b_false. repeat (destruct H as [<-|H]; [reflexivity|]). destruct H.
Qed.
Lemma S_nonterm : nonterm R "S"%string /\ nonterm R "'S"%string.
Proof. split; apply nonterm_b_true; reflexivity. Qed.

Lemma opens_term u : brackets u -> Forall (term R) (opens u) /\ Forall (term R) (closes u).
Proof.
  intros H. split; [|apply Forall_rev]; apply Forall_map; (eapply Forall_impl; [|exact H]); intros p Hp; now apply bracket_term in Hp.
Qed.

(** the sentential forms *)
Inductive form : list string -> Prop :=
| form_start : form ["'S"%string]
| form_mid u : brackets u -> form (opens u ++ "S"%string :: closes u)
| form_end u : brackets u -> u <> [] -> form (opens u ++ closes u).

Lemma unique_split (P : string -> Prop) l1 x l2 a y b : Forall P l1 -> Forall P l2 -> ~ P y -> l1 ++ x :: l2 = a ++ y :: b -> a = l1 /\ y = x /\ b = l2.
Proof.
  intros H1 H2 Hy. revert a. induction H1 as [|z l1 Hz _ IH]; intros [|w a] E; simpl in E; injection E as E1 E2.
  - subst. auto.
  - exfalso. apply Hy. subst l2. apply Forall_app in H2 as [_ H2]. now inversion H2.
  - exfalso. now subst.
  - subst. destruct (IH _ E2) as (-> & -> & ->). auto.
Qed.

Lemma form_step u v : rewrites R u v -> form u -> form v.
Proof.
  intros H F. destruct H as [a A b i rhs Hp]. apply R_prods in Hp as Hr.
  assert (~ term R A) as Hnt by (intros X; apply X; destruct Hp as (r & k & Hr' & _); now exists r).
  remember (a ++ A :: b) as f eqn:E. destruct F as [|u Hu|u Hu Hne].
  - destruct a as [|x a]; simpl in E; [|destruct a; discriminate]. injection E as <- <-. destruct Hr as [[_ ->]|[X _]]; [|discriminate].
    apply (form_mid []). constructor.
  - destruct (opens_term u Hu) as [T1 T2]. destruct (unique_split (term R) _ _ _ _ _ _ T1 T2 Hnt E) as (-> & -> & ->).
    destruct Hr as [[X _]|(_ & o & c & Hb & Hr)]; [discriminate|].
    assert (opens u ++ [str o] = opens (u ++ [(o, c)])) as E1 by (unfold opens; now rewrite map_app).
    assert ([str c] ++ closes u = closes (u ++ [(o, c)])) as E2 by (unfold closes; now rewrite map_app, rev_app_distr).
    assert (brackets (u ++ [(o, c)])) as Hb' by (apply Forall_app; split; auto).
    destruct Hr as [-> | ->].
    + replace (opens u ++ [str o; str c] ++ closes u) with ((opens u ++ [str o]) ++ [str c] ++ closes u) by (rewrite <- app_assoc; reflexivity).
      rewrite E1, E2. apply form_end; auto. now destruct u.
    + replace (opens u ++ [str o; "S"%string; str c] ++ closes u) with ((opens u ++ [str o]) ++ "S"%string :: ([str c] ++ closes u)) by (rewrite <- app_assoc; reflexivity).
      rewrite E1, E2. now apply form_mid.
  - exfalso. destruct (opens_term u Hu) as [T1 T2]. apply Hnt. assert (Forall (term R) (opens u ++ closes u)) as H by (apply Forall_app; auto).
    rewrite E in H. apply Forall_app in H as [_ H]. now inversion H.
Qed.
Lemma form_derives u v : derives R u v -> form u -> form v.
Proof. induction 1; auto. intros F. apply IHderives. eapply form_step; eauto. Qed.

Lemma derives_pairs u : brackets u -> u <> [] -> derives R ["S"%string] (opens u ++ closes u).
Proof.
  induction 1 as [|[o c] u H Hb IH]; [congruence|]. intros _. unfold opens, closes in *. cbn [map rev fst snd] in *. cbn [fst snd] in H. destruct u as [|p u].
  - destruct (R_one o c H) as (i & Hp). simpl. eapply derives_prod; eauto.
  - destruct (R_in o c H) as (i & Hp). eapply derives_trans; [eapply derives_prod; eauto|].
    cbn [app]. rewrite app_assoc. specialize (IH ltac:(discriminate)). exact (derives_ctx _ [str o] [str c] _ _ IH).
Qed.

Lemma str_inj l1 : forall l2, map str l1 = map str l2 -> l1 = l2.
Proof. induction l1 as [|a l1 IH]; intros [|b l2] E; try discriminate; auto. cbn [map] in E. injection E as -> E. f_equal. auto. Qed.

Lemma sentence_nested w : sentence R "'S"%string (map str w) <-> nested w.
Proof.
  rewrite nested_pairs. split.
  - intros [D Ht]. apply form_derives in D; [|constructor]. remember (map str w) as f eqn:E. destruct D as [|u Hu|u Hu Hne].
    + exfalso. inversion Ht as [|x l H _]; subst. apply H, S_nonterm.
    + exfalso. apply Forall_app in Ht as [_ Ht]. inversion Ht as [|x l H _]; subst. apply H, S_nonterm.
    + exists u. split; auto. split; auto. apply str_inj. rewrite <- E, map_app, map_rev, !map_map. reflexivity.
  - intros (u & Hne & Hu & ->). rewrite map_app, map_rev, !map_map. change (sentence R "'S"%string (opens u ++ closes u)). split.
    + eapply derives_trans; [eapply derives_prod; apply R_start|]. now apply derives_pairs.
    + destruct (opens_term u Hu). apply Forall_app; auto.
Qed.

(** ** the table *)
Lemma main_exact : decides_language "'S"%string "$"%string main_rules LALR.
Proof. apply exact_ok with 80 ["S"; "'S"]%string. check. Qed.

(** no conflict, end marker never shifted, accepted on nothing else *)
Definition plain_b (t : tabler string) : bool :=
  forallb (fun row => forallb (fun '(x, a) => match a with Conflict _ _ => false | Acc => eqb x "$"%string | Shift _ => negb (eqb x "$"%string) | _ => true end) row) (t_actions t).
Lemma plain_says t q x a : plain_b t = true -> table_says t q x (Some a) ->
  match a with Conflict _ _ => False | Acc => x = "$"%string | Shift _ => x <> "$"%string | _ => True end.
Proof.
  intros H (row & Hr & Hx). unfold plain_b in H. rewrite forallb_forall in H. specialize (H row (nth_error_In _ _ Hr)). rewrite forallb_forall in H.
  specialize (H _ (bm_get_in _ _ _ Hx)). cbn beta iota in H. destruct a; auto; try discriminate.
  - intros ->. rewrite eqb_refl in H. discriminate.
  - now apply eqb_eq in H.
Qed.

Definition main_tab (dbg : bool) : res (tabler string) := do '(t, _) <- main_setup dbg 80; Val t.
Lemma setup_ok dbg : exists t p tables, main_setup dbg 80 = Val (t, tables) /\ (do g <- main_grammar dbg; lalr_new dbg 80 g) = Val (t, p) /\ plain_b t = true.
Proof.
  assert (match main_setup dbg 80 with Val (t, _) => plain_b t | _ => false end = true) as H by (destruct dbg; vm_compute; reflexivity).
  destruct (main_setup dbg 80) as [[t tables]| |] eqn:E; try discriminate. unfold main_setup in E. apply bind_val in E as (g & Eg & E).
  apply bind_val in E as ([t' p] & Et & E). apply bind_val in E as (rows & _ & [= -> <-]). exists t, p. eexists. split; [reflexivity|]. split; auto. now rewrite Eg.
Qed.

Lemma linked_suffix (t : tabler string) r rest : linked (next_row R t) r rest -> Forall (fun r' => exists u, r_buffer r = u ++ r_buffer r') (r :: rest).
Proof.
  revert r. induction rest as [|r' rest IH]; intros r H; [repeat constructor; now exists []|]. destruct H as [H1 H2]. constructor; [now exists []|].
  assert (exists u, r_buffer r = u ++ r_buffer r') as (u & Eu).
  { destruct H1 as [n x w _ E _ _ E'|? ? ? ? ? ? ? _ _ _ _ _ _ _ E]; [exists [x]; rewrite E, E'; reflexivity|exists []; now rewrite E]. }
  eapply Forall_impl; [|exact (IH _ H2)]. intros r2 (v & Ev). exists (u ++ v). now rewrite <- app_assoc, <- Ev.
Qed.

(** *** C98 *)
Lemma main_lines dbg : exists t tables, (exists fuel, main_setup dbg fuel = Val (t, tables)) /\
  forall line, exists w, trimmed line w /\
  (~ Forall known w -> forall fuel, main_line fuel t line = Panic P_expect) /\
  (Forall known w -> exists rows o, List.length rows <= 5 * List.length w + 1 /\
     (forall fuel, 5 * List.length w + 4 <= fuel -> main_line fuel t line = Val (rows, o)) /\
     (nested w -> o = Ok) /\ (~ nested w -> exists x es, o = Err (UnexpectedToken x es))).
Proof.
  destruct (setup_ok dbg) as (t & p & tables & Es & Et & Hpl). apply bind_val in Et as (g & Hg & Et).
  exists t, tables. split; [eauto|]. intros line. exists (trim line). split; [apply trim_spec|].
  split. { intros Hu fuel. unfold main_line. now rewrite (input_unknown _ Hu). }
  intros Hk. set (w := trim line) in *. set (toks := map (mkTok tt) (map str w)).
  assert (main_input line = Val toks) as Ei by now apply input_known.
  destruct (main_exact dbg) as (g' & t' & Hg' & Hm' & H1 & H2 & H3 & H4). unfold main_grammar in Hg. rewrite Hg in Hg'. injection Hg' as <-.
  assert (makes LALR dbg g t) as Hm by (exists 80, p; exact Et).
  assert (t' = t) as -> by (eapply (proj1 (proj2 (deterministic dbg g)) LALR); eauto).
  assert (map tk_ty toks = map str w) as Ety by (unfold toks; rewrite map_map; apply map_id).
  assert (Forall (term R) (map tk_ty toks)) as Hter by (rewrite Ety; now apply known_terms).
  assert (term R "$"%string) as Heof by (apply nonterm_b_false; reflexivity).
  assert (covers R (empty_map g)) as Hcov by (eapply empty_covers; [apply R_wf|exact Hg]).
  pose proof (makes_dfa _ _ _ _ _ R_wf Hg (empty_map g) _ _ Hm toks) as Ed. set (d := dfa_new toks (t_actions t) (empty_map g) "$"%string) in *.
  assert (exists r, parses t toks (empty_map g) r) as Hret by (destruct (H4 unit (empty_map g) toks Hcov Hter) as [[_ [m Hr]]|[_ [e Hr]]]; eauto).
  destruct (linear_obs _ _ _ _ _ R_wf Hg (empty_map g) _ _ Hm Heof toks d Hter Ed Hret) as (cs & d' & o & Hn & Hfu).
  assert (List.length toks = List.length w) as El by (unfold toks; now rewrite !map_length).
  change (List.length R) with 2 in Hn. rewrite El in Hn. change ((2 * 2 + 1) * List.length w + 1) with (5 * List.length w + 1) in Hn.
  set (rows := fold_left (proc_rows "$"%string) cs []).
  assert (forall fuel, 5 * List.length w + 4 <= fuel -> print_proc_dfa fuel d = Val (rows, d', o)) as Hpr.
  { intros fuel Hf. unfold print_proc_dfa. rewrite Hfu by lia. reflexivity. }
  exists rows, o. split. { unfold rows. rewrite proc_rows_of. cbn [app]. rewrite rows_length. exact Hn. }
  split. { intros fuel Hf. unfold main_line. rewrite Ei. cbn [bind]. rewrite (makes_grammar _ _ _ _ _ R_wf Hg _ _ Hm), Ed. cbn [bind]. rewrite (Hpr fuel Hf). reflexivity. }
  destruct (proc_table _ _ _ _ _ R_wf Hg (empty_map g) _ _ Hm Heof _ _ _ _ _ _ Hter Ed (Hpr _ (le_n _))) as (Hst & _ & Ha & r & rest & Er & _ & Hb & Hl & Ho).
  assert (o = Ok \/ exists x es, o = Err (UnexpectedToken x es)) as Hcase.
  { assert (In (last rest r) (r :: rest)) as Hin by (clear; revert r; induction rest as [|y l IH]; intros r; [now left|]; rewrite last_next; right; apply IH).
    pose proof (linked_suffix _ _ _ Hl) as Hsuf. rewrite Forall_forall in Hsuf. destruct (Hsuf _ Hin) as (u & Eu). rewrite Hb, Ety in Eu.
    rewrite <- Er in Hin. rewrite Forall_forall in Ha. destruct (Ha _ Hin) as (st & q & x & v & _ & Ebuf & Eadr & Hsay).
    destruct Ho as [q' x' row E1 E2 E3|E1 E2|x' y v' E1 E2|a b E1|A rhs i st' p' tl a b E1 E2 E3 E4|n E1 E2]; [right; eauto|now left|exfalso..].
    - rewrite E1 in Hsay. apply (plain_says _ _ _ _ Hpl) in Hsay. cbv beta iota in Hsay. subst x. rewrite E2 in Ebuf. injection Ebuf as -> <-. rewrite E2 in Eu.
      assert (In "$"%string (map str w)) as Hin'.
      { clear -Eu. revert u Eu. generalize (map str w). intros l u Eu. assert (l = u ++ removelast ("$"%string :: y :: v')) as ->.
        { rewrite <- removelast_app by discriminate. rewrite <- Eu. now rewrite removelast_last. } apply in_or_app. right. now left. }
      apply in_map_iff in Hin' as (c & Ec & Hc). rewrite Forall_forall in Hk. specialize (Hk c Hc). injection Ec as ->.
      repeat (destruct Hk as [Hk|Hk]; [discriminate|]). destruct Hk.
    - rewrite E1 in Hsay. now apply (plain_says _ _ _ _ Hpl) in Hsay.
    - now apply (plain_says _ _ _ _ Hpl) in E4.
    - rewrite E1 in Hsay. apply (plain_says _ _ _ _ Hpl) in Hsay. rewrite E2 in Ebuf. congruence. }
  assert (o = Ok <-> nested w) as Hiff.
  { rewrite <- sentence_nested, <- Ety. split.
    - intros ->. destruct (Wp0 _ _ _ _ _ R_wf Hg) as (p0 & Hp0 & _). destruct (makes_made _ _ _ _ _ R_wf Hg _ _ _ Hm Hp0) as (sfk & lookf & X).
      pose proof (m_lr0 _ _ _ _ _ _ _ _ _ _ X) as L. pose proof (Wr _ _ _ _ _ Hg) as Erl.
      pose proof (fun M maps => @run_sound _ _ _ _ _ _ _ _ _ _ L M maps) as K. rewrite Erl in K. eapply (K _ (empty_map g) Heof toks d'); [|eexists; exact Hst].
      apply (fresh_ok _ R_wf). reflexivity.
    - intros Hse. apply (H3 unit (empty_map g) toks Hcov) in Hse as [m Hr].
      apply (parses_runs _ _ _ _ _ R_wf Hg (empty_map g) _ _ Hm) in Hr as (d2 & o2 & R2 & E2). fold d in R2.
      pose proof (runs_fun _ _ _ R2 (ex_intro _ _ Hst)) as [= -> ->]. now destruct o. }
  split; [apply Hiff|]. intros Hn'. destruct Hcase as [->|H]; auto. exfalso. apply Hn', Hiff. reflexivity.
Qed.
