(** The text [wop] writes. *)
From Coq Require Import List Bool Arith Lia Ascii String Permutation DecimalString DecimalFacts DecimalNat.
From Verif Require Import BTree Model Strings Wop WopSpec WopP WopDump WopFront WopExport WopText WopTextSpec Base.
Import ListNotations.
Local Open Scope string_scope.
Local Open Scope list_scope.
Local Open Scope nat_scope.

Lemma sconcat_cons a l : String.concat "" (a :: l) = (a ++ String.concat "" l)%string.
Proof. destruct l as [|b l]; simpl; [|reflexivity]. induction a as [|c a IH]; simpl; congruence. Qed.
Lemma sassoc (a b c : string) : ((a ++ b) ++ c)%string = (a ++ b ++ c)%string.
Proof. induction a as [|x a IH]; simpl; congruence. Qed.
Lemma sapp_nil (a : string) : (a ++ "")%string = a.
Proof. induction a as [|x a IH]; simpl; congruence. Qed.

Lemma plain_app a b : plain_name (a ++ b) = plain_name a && plain_name b.
Proof. induction a as [|c a IH]; simpl; [reflexivity|]. rewrite IH. now rewrite andb_assoc. Qed.

(** no newline *)
Definition flat_line (s : string) : bool := all_chars (fun c => negb (Ascii.eqb c newline)) s.
Lemma flat_app a b : flat_line (a ++ b) = flat_line a && flat_line b.
Proof. unfold flat_line. induction a as [|c a IH]; simpl; [reflexivity|]. rewrite IH. now rewrite andb_assoc. Qed.
Lemma plain_flat s : plain_name s = true -> flat_line s = true.
Proof.
  unfold flat_line. induction s as [|c s IH]; simpl; [reflexivity|]. intros H. apply andb_prop in H as [H1 H2]. rewrite IH by auto. rewrite andb_true_r.
  rewrite !negb_orb in H1. now destruct (negb (Ascii.eqb c newline)).
Qed.
Lemma lines_line a b : flat_line a = true -> lines (a ++ nl ++ b) = a :: lines b.
Proof.
  unfold flat_line. induction a as [|c a IH]; simpl; [reflexivity|]. intros H. apply andb_prop in H as [H1 H2]. specialize (IH H2). unfold nl in IH. simpl in IH. rewrite IH.
  destruct (Ascii.eqb c newline); [discriminate|reflexivity].
Qed.
Lemma lines_last a : flat_line a = true -> lines a = [a].
Proof.
  unfold flat_line. induction a as [|c a IH]; simpl; [reflexivity|]. intros H. apply andb_prop in H as [H1 H2]. rewrite (IH H2). destruct (Ascii.eqb c newline); [discriminate|reflexivity].
Qed.
Lemma before_comma_name n r : plain_name n = true -> before_comma (n ++ "," ++ r) = n.
Proof.
  induction n as [|c n IH]; simpl; [reflexivity|]. intros H. apply andb_prop in H as [H1 H2]. simpl in IH. rewrite (IH H2). rewrite !negb_orb in H1.
  destruct (Ascii.eqb c ","); [|reflexivity]. simpl in H1. rewrite andb_false_r in H1. discriminate.
Qed.
Lemma elements_one n r : plain_name n = true -> elements (n ++ ", " ++ r) = n :: elements r.
Proof.
  induction n as [|c n IH]; [reflexivity|]. cbn [plain_name]. intros H. apply andb_prop in H as [H1 H2]. specialize (IH H2). rewrite !negb_orb in H1.
  cbn [String.append elements]. cbn [String.append] in IH. rewrite IH. destruct (Ascii.eqb c newline), (Ascii.eqb c ","), (Ascii.eqb c " "), (Ascii.eqb c "]"); try discriminate H1; reflexivity.
Qed.

Section T.
Variable text : span -> string.

Lemma elements_all l : forallb (fun s => plain_name (text s)) l = true -> elements (String.concat "" (map (fun g => text g ++ ", ")%string l) ++ "],") = map text l.
Proof.
  induction l as [|g l IH]; [reflexivity|]. simpl forallb. intros H. apply andb_prop in H as [H1 H2]. rewrite map_cons, sconcat_cons, !sassoc. rewrite elements_one by exact H1. simpl map. f_equal. now apply IH.
Qed.
Definition plain_prod (p : prod_build) : bool := forallb (fun s => plain_name (text s)) (pb_production p).
Lemma flat_elements l : forallb (fun s => plain_name (text s)) l = true -> flat_line (String.concat "" (map (fun g => text g ++ ", ")%string l)) = true.
Proof.
  induction l as [|g l IH]; [reflexivity|]. simpl forallb. intros H. apply andb_prop in H as [H1 H2]. rewrite map_cons, sconcat_cons, !flat_app, IH by auto. now rewrite plain_flat.
Qed.
Lemma read_prod p rest ps rs : plain_prod p = true -> read_lines (lines rest) = (ps, rs) -> read_lines (lines (write_prod text p ++ rest)) = (map text (pb_production p) :: ps, rs).
Proof.
  intros Hp E. unfold write_prod. rewrite !sassoc.
  set (body := String.concat "" (map (fun g => text g ++ ", ")%string (pb_production p))).
  change ((tab ++ tab ++ "vec![" ++ body ++ "]," ++ nl ++ rest)%string) with ((tabs 2 ++ "vec![") ++ (body ++ "]," ++ nl ++ rest))%string.
  rewrite <- (sassoc body), <- (sassoc (tabs 2 ++ "vec![")). rewrite lines_line.
  - cbn [read_lines]. rewrite E.
    assert (A1 : after (tabs 1 ++ "map.insert(") ((tabs 2 ++ "vec![") ++ body ++ "],") = None) by reflexivity.
    assert (A2 : after (tabs 2 ++ "vec![") ((tabs 2 ++ "vec![") ++ body ++ "],") = Some (body ++ "],")%string) by reflexivity.
    rewrite A1, A2. unfold body. now rewrite elements_all.
  - rewrite !flat_app. unfold body. rewrite flat_elements by exact Hp. reflexivity.
Qed.
Lemma read_prods prods rest ps rs : forallb plain_prod prods = true -> read_lines (lines rest) = (ps, rs) ->
  read_lines (lines (String.concat "" (map (write_prod text) prods) ++ rest)) = (dump_rule text prods ++ ps, rs).
Proof.
  induction prods as [|p prods IH]; intros H E; [exact E|]. simpl in H. apply andb_prop in H as [H1 H2]. rewrite map_cons, sconcat_cons, sassoc.
  now apply read_prod; [exact H1|apply IH].
Qed.
(** a line that is neither *)
Lemma read_other a rest : flat_line a = true -> after (tabs 1 ++ "map.insert(") a = None -> after (tabs 2 ++ "vec![") a = None -> read_lines (lines (a ++ nl ++ rest)) = read_lines (lines rest).
Proof. intros H1 H2 H3. rewrite lines_line by exact H1. cbn [read_lines]. rewrite H2, H3. now destruct (read_lines (lines rest)). Qed.
Lemma read_rule name prods rest rs : plain_name name = true -> forallb plain_prod prods = true -> read_lines (lines rest) = ([], rs) ->
  read_lines (lines (write_rule text name prods ++ rest)) = ([], (name, dump_rule text prods) :: rs).
Proof.
  intros Hn Hp E. unfold write_rule. rewrite !sassoc.
  set (x := (String.concat "" (map (write_prod text) prods) ++ nl ++ tab ++ "]));" ++ nl ++ rest)%string).
  assert (Ex : read_lines (lines x) = (dump_rule text prods, rs)).
  { unfold x. rewrite <- (List.app_nil_r (dump_rule text prods)). apply read_prods; [exact Hp|]. change (nl ++ tab ++ "]));" ++ nl ++ rest)%string with ("" ++ nl ++ (tab ++ "]));") ++ nl ++ rest)%string.
    rewrite read_other by reflexivity. now rewrite read_other by reflexivity. }
  set (h := (tab ++ "map.insert(" ++ name ++ ", lrp::grammar::Rule::new(" ++ name ++ ", vec![")%string).
  assert (Eh : (tab ++ "map.insert(" ++ name ++ ", lrp::grammar::Rule::new(" ++ name ++ ", vec![" ++ nl ++ x = h ++ nl ++ x)%string) by (unfold h; now rewrite !sassoc).
  rewrite Eh. rewrite lines_line.
  - cbn [read_lines]. rewrite Ex.
    assert (A1 : after (tabs 1 ++ "map.insert(") h = Some (name ++ "," ++ " lrp::grammar::Rule::new(" ++ name ++ ", vec![")%string) by reflexivity.
    rewrite A1, before_comma_name by exact Hn. reflexivity.
  - unfold h. rewrite !flat_app, (plain_flat name) by exact Hn. reflexivity.
Qed.

Definition plain_builder (b : builder) : Prop :=
  (forall i, In i (b_imports b) -> flat_line (text i) = true) /\
  forall name prods, In (name, prods) (b_rules b) -> plain_name name = true /\ forall p s, In p prods -> In s (pb_production p) -> plain_name (text s) = true.

(** reading the emitted grammar gives the productions *)
Theorem read_dump b rules : plain_builder b -> Permutation rules (b_rules b) ->
  read_rules (dump_grammar_text text b rules) = map (fun e => (fst e, dump_rule text (snd e))) rules.
Proof.
  intros [Hi Hr] P. unfold read_rules, dump_grammar_text.
  assert (Hr' : forall name prods, In (name, prods) rules -> plain_name name = true /\ forallb plain_prod prods = true).
  { intros name prods Hin. apply (Permutation_in _ P) in Hin. apply Hr in Hin as [H1 H2]. split; auto. apply forallb_forall. intros p Hp. apply forallb_forall. intros s. now apply H2. }
  assert (E : read_lines (lines (String.concat "" (map (fun e => write_rule text (fst e) (snd e)) rules) ++ nl ++ tab ++ "map" ++ nl ++ "}")) = ([], map (fun e => (fst e, dump_rule text (snd e))) rules)).
  { clear P Hr. induction rules as [|[n ps] l IH]; [reflexivity|]. rewrite map_cons, sconcat_cons, sassoc. cbn [map fst snd]. destruct (Hr' n ps (or_introl eq_refl)) as [H1 H2].
    apply read_rule; auto. apply IH. intros. apply Hr'. now right. }
  change ("{" ++ nl ++ use_lines text b ++ tab ++ "let mut map = lrp::RuleMap::new();" ++ nl ++ String.concat "" (map (fun e => write_rule text (fst e) (snd e)) rules) ++ nl ++ tab ++ "map" ++ nl ++ "}")%string
    with ("{" ++ nl ++ (use_lines text b ++ (tab ++ "let mut map = lrp::RuleMap::new();") ++ nl ++ (String.concat "" (map (fun e => write_rule text (fst e) (snd e)) rules) ++ nl ++ tab ++ "map" ++ nl ++ "}")))%string.
  rewrite read_other by reflexivity. 
  assert (U : forall rest, read_lines (lines (use_lines text b ++ rest)) = read_lines (lines rest)).
  { intros rest. unfold use_lines. revert Hi. generalize (b_imports b). intros l Hi. induction l as [|i l IH]; [reflexivity|]. rewrite map_cons, sconcat_cons, !sassoc.
    change (tab ++ "use " ++ text i ++ ";" ++ nl ++ String.concat "" (map (fun i => tab ++ "use " ++ text i ++ ";" ++ nl)%string l) ++ rest)%string
      with ((tab ++ "use ") ++ text i ++ ";" ++ nl ++ String.concat "" (map (fun i => tab ++ "use " ++ text i ++ ";" ++ nl)%string l) ++ rest)%string.
    rewrite <- (sassoc (text i)), <- (sassoc (tab ++ "use ")). rewrite read_other; [apply IH; intros; apply Hi; now right| |reflexivity|reflexivity].
    rewrite !flat_app, (Hi i) by now left. reflexivity. }
  rewrite U. rewrite read_other by reflexivity. rewrite E. reflexivity.
Qed.
End T.

(** ** names of reductors *)
Definition digit (c : ascii) : bool := let n := nat_of_ascii c in (48 <=? n) && (n <=? 57).
Lemma digits_chars n : all_chars digit (digits n) = true.
Proof.
  unfold digits. assert (H : forall u, all_chars digit (NilEmpty.string_of_uint u) = true) by (induction u; simpl; auto).
  unfold NilZero.string_of_uint. destruct (Nat.to_uint n); try apply (H (Decimal.D0 _)); try apply H; try reflexivity.
Qed.
Lemma digits_inj n m : digits n = digits m -> n = m.
Proof.
  intros E. unfold digits in E. apply (f_equal NilZero.uint_of_string) in E. rewrite !NilZero.usu in E.
  - injection E as E. now apply Unsigned.to_uint_inj.
  - intros H. destruct m; [discriminate|]. pose proof (Unsigned.of_to (S m)) as Q. rewrite H in Q. discriminate.
  - intros H. destruct n; [discriminate|]. pose proof (Unsigned.of_to (S n)) as Q. rewrite H in Q. discriminate.
Qed.
Lemma no_underscore b a d : all_chars digit d = true -> d <> (a ++ "_" ++ b)%string.
Proof.
  revert d. induction a as [|x a IH]; intros d Hd E; destruct d as [|y d]; try discriminate; simpl in E, Hd; injection E as -> E; apply andb_prop in Hd as [H1 H2]; [discriminate|]. now apply (IH d).
Qed.
Lemma split_digits a b c d : all_chars digit b = true -> all_chars digit d = true -> (a ++ "_" ++ b = c ++ "_" ++ d)%string -> a = c /\ b = d.
Proof.
  intros Hb Hd. revert c. induction a as [|x a IH]; intros [|y c] E; simpl in E.
  - injection E as E. auto.
  - injection E as <- E. now destruct (no_underscore d c b Hb).
  - injection E as -> E. now destruct (no_underscore b a d Hd).
  - injection E as -> E. destruct (IH c E). subst. auto.
Qed.
Theorem fn_name_inj n i m j : fn_name n i = fn_name m j -> n = m /\ i = j.
Proof.
  unfold fn_name. intros E. injection E as E. apply split_digits in E as [-> E]; auto using digits_chars. split; auto. now apply digits_inj.
Qed.
Lemma all_app p a b : all_chars p (a ++ b) = all_chars p a && all_chars p b.
Proof. induction a as [|c a IH]; simpl; [reflexivity|]. rewrite IH. now rewrite andb_assoc. Qed.
Theorem fn_name_ident n i : all_chars ident_char (fn_name n i) = all_chars ident_char n.
Proof.
  unfold fn_name. rewrite !all_app. assert (H : all_chars ident_char (digits i) = true).
  { pose proof (digits_chars i) as D. induction (digits i) as [|c s IH]; [reflexivity|]. simpl in *. apply andb_prop in D as [D1 D2]. rewrite (IH D2). unfold ident_char, digit in *. rewrite D1. reflexivity. }
  rewrite H. simpl. now rewrite andb_true_r.
Qed.

(** ** running the reductors *)
Lemma run_all_plain {A} (toks : list A) bs : (forall b, In b bs -> bd_name b <> "toks"%string) ->
  run_all toks bs = mapM (fun b => do v <- run_binding toks b; Val (bd_name b, v)) bs.
Proof.
  induction bs as [|b bs IH]; intros H; [reflexivity|]. cbn [run_all mapM]. destruct (String.eqb_spec (bd_name b) "toks") as [E|_]; [now destruct (H b (or_introl eq_refl))|].
  rewrite IH by (intros; apply H; now right). destruct (run_binding toks b); reflexivity.
Qed.
Section R.
Variable text : span -> string.
Variable order : prod_build -> list prod_build -> list span -> list span.
Hypothesis Ho : iterates order.
Variable dbg : bool.
Theorem emits_runs ts alt r bs c : emits text order dbg ts alt r bs c -> good text (fst alt) -> fst r <> [] -> ~ In "toks"%string (pipe_names text (fst alt)) ->
  forall A (toks : list A), List.length toks = List.length (fst r) ->
  exists vals, run_all toks bs = Val vals /\ (forall n, In n (map fst vals) -> In n (pipe_names text (fst alt))) /\
    forall n, In n (pipe_names text (fst alt)) -> exists v, filter (fun x => String.eqb (fst x) n) vals = [(n, v)] /\ expected text (fst alt) toks (snd r) n = Val v.
Proof.
  intros He Hg Hne Hk A toks Hl. destruct (emits_right text order dbg Ho _ _ _ _ _ He) as (_ & H & _). destruct (H Hg) as [H1 H2]. clear H.
  assert (Ht : toks <> []) by (intros ->; destruct (fst r); [easy|discriminate]).
  assert (Hv : forall b, In b bs -> exists x, run_binding toks b = Val x) by (intros b Hb; eapply (emits_safe text order dbg Ho ts alt r bs c); eauto).
  rewrite run_all_plain by (intros b Hb E; apply Hk; rewrite <- E; now apply H1).
  assert (exists vals, mapM (fun b => do v <- run_binding toks b; Val (bd_name b, v)) bs = Val vals) as (vals & Ev).
  { apply mapM_total. intros b Hb. destruct (Hv b Hb) as (x & Ex). rewrite Ex. simpl. eauto. }
  exists vals. split; [exact Ev|]. apply mapM_val in Ev. split.
  - intros n Hn. apply in_map_iff in Hn as ([n' v] & <- & Hin). simpl.
    destruct (Forall2_in_r_ex _ _ _ _ Ev Hin) as (b & Hb & E). destruct (Hv b Hb) as (x & Ex). rewrite Ex in E. simpl in E. injection E as <- <-. now apply H1.
  - intros n Hn. destruct (H2 n Hn) as (b & Ef & Hrun). specialize (Hrun A toks Hl Ht).
    assert (Hb : In b bs /\ bd_name b = n). { assert (Hx : In b (filter (fun b => String.eqb (bd_name b) n) bs)) by (rewrite Ef; now left). apply filter_In in Hx as [Hx Hy]. now apply String.eqb_eq in Hy. }
    destruct Hb as [Hb En]. destruct (Hv b Hb) as (x & Ex). exists x. split; [|congruence].
    clear - Ev Ef Ex Hv. assert (G : forall bs vals, Forall2 (fun b y => (do v <- run_binding toks b; Val (bd_name b, v)) = Val y) bs vals ->
      Forall2 (fun b y => (do v <- run_binding toks b; Val (bd_name b, v)) = Val y) (filter (fun b => String.eqb (bd_name b) n) bs) (filter (fun x => String.eqb (fst x) n) vals)).
    { induction 1 as [|b0 y bs0 vals0 E F IH]; [constructor|]. simpl. assert (fst y = bd_name b0) as ->. { destruct (run_binding toks b0); simpl in E; try discriminate. now injection E as <-. }
      destruct (String.eqb (bd_name b0) n); [constructor; auto|auto]. }
    specialize (G _ _ Ev). rewrite Ef in G. inversion G as [|? y ? l E F]; subst. inversion F; subst. rewrite Ex in E. simpl in E. injection E as <-.
    assert (Hx : In b (filter (fun b => String.eqb (bd_name b) n) bs)) by (rewrite Ef; now left). apply filter_In in Hx as [_ Hx]. apply String.eqb_eq in Hx. now rewrite Hx.
Qed.
Theorem reductors_run ts alt r bs c : emits text order dbg ts alt r bs c -> good text (fst alt) -> fst r <> [] -> ~ In "toks"%string (pipe_names text (fst alt)) ->
  forall A B (code : list (string * bound A) -> B) (toks : list A), List.length toks = List.length (fst r) -> exists v, run_reductor code bs toks = Val v.
Proof.
  intros He Hg Hne Hk A B code toks Hl. destruct (emits_runs _ _ _ _ _ He Hg Hne Hk A toks Hl) as (vals & E & _). unfold run_reductor. rewrite E. cbn [bind].
  destruct toks as [|a l]; [destruct (fst r); [easy|discriminate]|]. destruct (nth_error (rev (a :: l)) 0) as [z|] eqn:Ez; [exists (code vals, (a, z)); reflexivity|].
  apply nth_error_None in Ez. rewrite rev_length in Ez. simpl in Ez. lia.
Qed.
(** without tokens every reductor panics *)
Lemma reductor_empty {A B} (code : list (string * bound A) -> B) bs v : run_reductor code bs [] <> Val v.
Proof. unfold run_reductor. destruct (run_all [] bs); discriminate. Qed.
End R.
