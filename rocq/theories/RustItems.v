(** The reductors wop writes, read as Rust. *)
From Coq Require Import List Bool Arith Lia Ascii String.
From Verif Require Import BTree Model Strings Wop WopSpec WopText WopTextSpec WopExport WopTextP Base RustSpec RustP.
Import ListNotations.
Local Open Scope string_scope.
Local Open Scope list_scope.
Local Open Scope nat_scope.

Lemma free_app p a b : free p (a ++ b) = free p a && free p b.
Proof. apply all_app. Qed.
Lemma up_to_free p a c t : free p a = true -> existsb (Ascii.eqb c) p = true -> up_to p (a ++ String c t) = Some (a, c, t).
Proof.
  intros H Hc. induction a as [|x a IH]; cbn [String.append up_to]; [now rewrite Hc|]. cbn [free all_chars] in H. apply andb_true_iff in H as [H1 H2]. apply negb_true_iff in H1.
  rewrite H1. now rewrite (IH H2).
Qed.
Definition prepend (s : string) (x : option (string * string)) : option (string * string) := match x with Some (a, b) => Some ((s ++ a)%string, b) | None => None end.
Lemma closing_balanced_gen s : forall e d t, closing e (s ++ "}") = Some (s, "") -> closing (e + d) (s ++ t) = prepend s (closing d t).
Proof.
  induction s as [|c s IH]; intros e d t H.
  - destruct e; [|discriminate]. cbn. now destruct (closing d t) as [[]|].
  - cbn [String.append closing] in *. destruct (Ascii.eqb_spec c "}") as [->|N].
    + destruct e as [|e]; [discriminate|]. cbn [Nat.add]. destruct (closing e (s ++ "}")) as [[a b]|] eqn:E; [|discriminate]. injection H as -> ->. rewrite IH by assumption. now destruct (closing d t) as [[]|].
    + destruct (closing _ (s ++ "}")) as [[a b]|] eqn:E in H; [|discriminate]. injection H as -> ->.
      destruct (Ascii.eqb c "{"); [rewrite (IH (S e) d)|rewrite IH]; auto; now destruct (closing d t) as [[]|].
Qed.
Lemma closing_balanced s d t : balanced s -> closing d (s ++ t) = prepend s (closing d t).
Proof. apply (closing_balanced_gen s 0). Qed.
Lemma closing_free s d t : free ["{"%char; "}"%char] s = true -> closing d (s ++ t) = prepend s (closing d t).
Proof.
  intros H. induction s as [|c s IH]; [cbn; now destruct (closing d t) as [[]|]|]. cbn [free all_chars existsb] in H. apply andb_true_iff in H as [H1 H2].
  apply negb_true_iff, orb_false_iff in H1 as [H1 H3]. apply orb_false_iff in H3 as [H3 _]. cbn [String.append closing]. rewrite H3, H1, (IH H2). now destruct (closing d t) as [[]|].
Qed.
Lemma after_app p t : after p (p ++ t) = Some t.
Proof. induction p as [|c p IH]; [now destruct t|]. cbn. now rewrite Ascii.eqb_refl. Qed.

Lemma read_items_more n : forall m s x, n <= m -> read_items n s = Some x -> read_items m s = Some x.
Proof.
  induction n as [|n IH]; intros m s x H E; [discriminate|]. destruct m as [|m]; [lia|]. cbn [read_items] in *.
  destruct (read_item (trim s)) as [[i r]|]; [|exact E]. destruct (read_items n r) as [y|] eqn:E'; [|discriminate]. now rewrite (IH m r y) by (auto; lia).
Qed.
Lemma elements_name n t : plain_name n = true -> elements (n ++ ", " ++ t) = n :: elements t.
Proof.
  intros H. induction n as [|c n IH]; [reflexivity|]. cbn [plain_name] in H. apply andb_true_iff in H as [H1 H2]. rewrite !negb_orb in H1. apply andb_true_iff in H1 as [H1 H5]. apply andb_true_iff in H1 as [H1 H4].
  apply andb_true_iff in H1 as [_ H3]. apply negb_true_iff in H3, H4, H5. change (String c n ++ ", " ++ t)%string with (String c (n ++ ", " ++ t)). cbn [elements]. rewrite H3, H4, H5. now rewrite (IH H2).
Qed.
Lemma elements_names l t : Forall (fun n => plain_name n = true) l -> elements (String.concat "" (map (fun n => n ++ ", ")%string l) ++ t) = l ++ elements t.
Proof. induction 1 as [|n l H _ IH]; [reflexivity|]. rewrite map_cons, sconcat_cons, !sassoc, elements_name by assumption. now rewrite IH. Qed.

Lemma free_sub p q s : forallb (fun c => existsb (Ascii.eqb c) p) q = true -> free p s = true -> free q s = true.
Proof.
  intros H. apply all_chars_impl. intros c Hc. apply negb_true_iff. apply negb_true_iff in Hc. apply not_true_iff_false. intros K. apply existsb_exists in K as (x & Hx & E). apply Ascii.eqb_eq in E as <-.
  rewrite forallb_forall in H. specialize (H _ Hx). congruence.
Qed.
Lemma free_plain s : free special s = true -> plain_name s = true.
Proof.
  unfold free, special. induction s as [|c s IH]; [easy|]. cbn [all_chars plain_name existsb]. rewrite !andb_true_iff, !negb_orb, !andb_true_iff. intuition.
Qed.
Lemma digits_free p n : forallb (fun c => negb (digit c)) p = true -> free p (digits n) = true.
Proof.
  intros H. eapply all_chars_impl; [|apply digits_chars]. intros c Hc. cbn beta. apply negb_true_iff, not_true_iff_false. intros K. apply existsb_exists in K as (x & Hx & E). apply Ascii.eqb_eq in E as <-.
  rewrite forallb_forall in H. specialize (H _ Hx). now rewrite Hc in H.
Qed.
Lemma fn_name_free n i : free special n = true -> free special (fn_name n i) = true.
Proof. intros H. unfold fn_name. rewrite !free_app, H, digits_free by reflexivity. reflexivity. Qed.

Definition span_arg : string := ", lrp::Span::new(toks[0].item.span.start, toks.last().unwrap().item.span.end))".
Definition fn_sig (entry ty : string) : string := "toks: &[" ++ entry ++ "]) -> lrp::Meta<" ++ ty ++ "> ".
Definition fn_body (stm c : string) : string := nl ++ tab ++ tab ++ "lrp::Meta::new({ " ++ stm ++ " " ++ c ++ "}" ++ span_arg ++ nl ++ tab.

Lemma read_body_fn stm c : free curly stm = true -> balanced c -> read_body (fn_body stm c) = Some ((" " ++ stm ++ " " ++ c)%string, (span_arg ++ nl ++ tab)%string).
Proof.
  intros Hs Hc. unfold read_body, fn_body.
  change (trim (nl ++ tab ++ tab ++ "lrp::Meta::new({ " ++ stm ++ " " ++ c ++ "}" ++ span_arg ++ nl ++ tab)) with ("lrp::Meta::new({" ++ " " ++ stm ++ " " ++ c ++ "}" ++ span_arg ++ nl ++ tab)%string.
  rewrite after_app. rewrite (closing_free " ") by reflexivity. rewrite (closing_free stm) by (now apply (free_sub curly)). rewrite (closing_free " ") by reflexivity. rewrite closing_balanced by assumption. cbn [closing String.append Ascii.eqb Bool.eqb prepend].
  cbn. now rewrite !sapp_nil.
Qed.
Lemma closing_body stm c rest : free curly stm = true -> balanced c -> closing 0 (fn_body stm c ++ "}" ++ rest) = Some (fn_body stm c, rest).
Proof.
  intros Hs Hc. unfold fn_body.
  replace ((nl ++ tab ++ tab ++ "lrp::Meta::new({ " ++ stm ++ " " ++ c ++ "}" ++ span_arg ++ nl ++ tab) ++ "}" ++ rest)%string
    with ((nl ++ tab ++ tab ++ "lrp::Meta::new(") ++ String "{" (" " ++ stm ++ " " ++ c ++ String "}" ((span_arg ++ nl ++ tab) ++ String "}" rest)))%string by (rewrite !sassoc; reflexivity).
  rewrite closing_free by reflexivity. cbn [closing]. replace (Ascii.eqb "{" "}") with false by reflexivity. replace (Ascii.eqb "{" "{") with true by reflexivity. cbv iota beta.
  rewrite (closing_free " ") by reflexivity. rewrite (closing_free stm) by (now apply (free_sub curly)). rewrite (closing_free " ") by reflexivity. rewrite closing_balanced by assumption.
  cbn [closing]. replace (Ascii.eqb "}" "}") with true by reflexivity. cbv iota beta. rewrite closing_free by reflexivity. cbn [closing]. replace (Ascii.eqb "}" "}") with true by reflexivity. cbv iota beta.
  cbn [prepend]. rewrite sapp_nil, !sassoc. reflexivity.
Qed.
Lemma read_fn name entry ty body rest : free special name = true -> free curly entry = true -> free curly ty = true -> closing 0 (body ++ "}" ++ rest) = Some (body, rest) ->
  read_item (trim (tab ++ "fn " ++ name ++ "(" ++ fn_sig entry ty ++ "{" ++ body ++ "}" ++ rest)) = Some (IFn name (fn_sig entry ty) body, rest).
Proof.
  intros Hn He Ht Hc. match goal with |- context [trim (tab ++ "fn " ++ ?r)] => change (trim (tab ++ "fn " ++ r)) with ("fn " ++ r)%string end.
  unfold read_item. rewrite after_app. change ("(" ++ fn_sig entry ty ++ "{" ++ body ++ "}" ++ rest)%string with (String "(" (fn_sig entry ty ++ String "{" (body ++ "}" ++ rest))).
  rewrite up_to_free by (try reflexivity; now apply (free_sub special)). rewrite up_to_free; [|unfold fn_sig; rewrite !free_app; rewrite !(free_sub curly) by (try reflexivity; assumption); reflexivity|reflexivity]. now rewrite Hc.
Qed.
Lemma read_insert name fns rest : free special name = true -> Forall (fun n => free special n = true) fns ->
  read_item (trim (tab ++ "map.insert(" ++ name ++ ", vec![" ++ String.concat "" (map (fun n => n ++ ", ")%string fns) ++ tab ++ "]);" ++ rest)) = Some (IInsert name fns, rest).
Proof.
  intros Hn Hf. match goal with |- context [trim (tab ++ "map.insert(" ++ ?r)] => change (trim (tab ++ "map.insert(" ++ r)) with ("map.insert(" ++ r)%string end.
  unfold read_item. match goal with |- context [after "fn " ?x] => change (after "fn " x) with (@None string) end. rewrite after_app.
  match goal with |- context [up_to _ (name ++ ", vec![" ++ ?r)] => change (name ++ ", vec![" ++ r)%string with (name ++ String "," (" vec![" ++ r))%string end.
  rewrite up_to_free by (try reflexivity; now apply (free_sub special)). rewrite after_app.
  replace (String.concat "" (map (fun n => n ++ ", ")%string fns) ++ tab ++ "]);" ++ rest)%string with ((String.concat "" (map (fun n => n ++ ", ")%string fns) ++ tab ++ "])") ++ String ";" rest)%string by (rewrite !sassoc; reflexivity).
  rewrite up_to_free; [|rewrite free_app; apply andb_true_iff; split; [|reflexivity]|reflexivity].
  - rewrite elements_names by (eapply Forall_impl; [|exact Hf]; intros; now apply free_plain). now rewrite List.app_nil_r.
  - induction Hf as [|n l H _ IH]; [reflexivity|]. rewrite map_cons, sconcat_cons, !free_app, IH, (free_sub special) by (auto; reflexivity). reflexivity.
Qed.

Definition prepend_items (l : list item) (x : option (list item * string * string)) : option (list item * string * string) :=
  match x with Some (l', e, r) => Some (l ++ l', e, r) | None => None end.
Lemma prepend_nil x : prepend_items [] x = x.
Proof. now destruct x as [[[]]|]. Qed.
Lemma prepend_app l l' x : prepend_items l (prepend_items l' x) = prepend_items (l ++ l') x.
Proof. destruct x as [[[]]|]; [|reflexivity]. cbn. now rewrite List.app_assoc. Qed.
Lemma items_nl n s : read_items n (nl ++ s) = read_items n s.
Proof. now destruct n. Qed.
Lemma items_step s i r m : read_item (trim s) = Some (i, r) -> read_items (S m) s = prepend_items [i] (read_items m r).
Proof. intros E. cbn [read_items]. rewrite E. now destruct (read_items m r) as [[[]]|]. Qed.

Lemma Val_inj {A} (a b : A) : Val a = Val b -> a = b.
Proof. congruence. Qed.
Lemma slen_app a b : String.length (a ++ b) = String.length a + String.length b.
Proof. induction a as [|c a IH]; [reflexivity|]. cbn. now rewrite IH. Qed.
Lemma after_length p : forall s r, after p s = Some r -> String.length s = String.length p + String.length r.
Proof. induction p as [|c p IH]; intros s r H; [destruct s; now injection H as <-|]. destruct s as [|x s]; [discriminate|]. cbn in *. destruct (Ascii.eqb c x); [|discriminate]. now rewrite (IH s r). Qed.
Lemma up_to_length p : forall s a c r, up_to p s = Some (a, c, r) -> String.length r < String.length s.
Proof.
  induction s as [|x s IH]; intros a c r H; [discriminate|]. cbn in *. destruct (existsb (Ascii.eqb x) p); [injection H as <- <- <-; lia|].
  destruct (up_to p s) as [[[a' c'] r']|] eqn:E; [|discriminate]. injection H as <- <- <-. specialize (IH _ _ _ eq_refl). lia.
Qed.
Lemma closing_length : forall s d a r, closing d s = Some (a, r) -> String.length r < String.length s.
Proof.
  induction s as [|x s IH]; intros d a r H; [discriminate|]. cbn in *. destruct (Ascii.eqb x "}"); [destruct d; [injection H as <- <-; lia|]|].
  - destruct (closing d s) as [[a' r']|] eqn:E; [|discriminate]. injection H as <- <-. apply IH in E. lia.
  - destruct (closing _ s) as [[a' r']|] eqn:E in H; [|discriminate]. injection H as <- <-. apply IH in E. lia.
Qed.
Lemma trim_length s : String.length (trim s) <= String.length s.
Proof. induction s as [|c s IH]; [reflexivity|]. cbn [trim String.length]. destruct (is_blank c); cbn [String.length]; lia. Qed.
Lemma item_length s i r : read_item s = Some (i, r) -> String.length r < String.length s.
Proof.
  unfold read_item. intros H. destruct (after "fn " s) as [s1|] eqn:E1; [|destruct (after "map.insert(" s) as [s2|] eqn:E2].
  - apply after_length in E1. destruct (up_to _ s1) as [[[? ?] s3]|] eqn:E3; [|discriminate]. apply up_to_length in E3.
    destruct (up_to _ s3) as [[[? ?] s4]|] eqn:E4; [|discriminate]. apply up_to_length in E4. destruct (closing 0 s4) as [[? ?]|] eqn:E5; [|discriminate]. apply closing_length in E5. injection H as <- <-. lia.
  - apply after_length in E2. destruct (up_to _ s2) as [[[? ?] s3]|] eqn:E3; [|discriminate]. apply up_to_length in E3.
    destruct (after _ s3) as [s4|] eqn:E4; [|discriminate]. apply after_length in E4. destruct (up_to _ s4) as [[[? ?] s5]|] eqn:E5; [|discriminate]. apply up_to_length in E5. injection H as <- <-. lia.
  - destruct (up_to _ s) as [[[? c] s3]|] eqn:E3; [|discriminate]. apply up_to_length in E3. destruct c as [[] [] [] [] [] [] [] []]; try discriminate. now injection H as <- <-.
Qed.
Lemma items_fuel n : forall s x, read_items n s = Some x -> forall m, String.length s < m -> read_items m s = Some x.
Proof.
  induction n as [|n IH]; intros s x H m Hm; [discriminate|]. destruct m as [|m]; [lia|]. cbn [read_items] in *. destruct (read_item (trim s)) as [[i r]|] eqn:E; [|exact H].
  destruct (read_items n r) as [y|] eqn:E'; [|discriminate]. apply item_length in E. pose proof (trim_length s). rewrite (IH r y E' m) by lia. exact H.
Qed.
Section T.
Variable text : span -> string.
Definition stm_of (p : prod_build) : string := String.concat "" (map binding_text (map (write_alias text) (pb_aliases p))).
Definition code_of (p : prod_build) : string := match code_body (text (pb_codeblock p)) with Val c => c | _ => "" end.
Definition fn_item (entry name ty : string) (x : nat * prod_build) : item := IFn (fn_name name (fst x)) (fn_sig entry ty) (fn_body (stm_of (snd x)) (code_of (snd x))).
Definition rule_items (entry : string) (e : string * list prod_build) : list item :=
  match snd e with
  | [] => []
  | p0 :: _ => map (fn_item entry (fst e) (text (pb_ty p0))) (enum 0 (snd e)) ++ [IInsert (fst e) (map (fun x => fn_name (fst e) (fst x)) (enum 0 (snd e)))]
  end.

Lemma binding_free b : free curly (bd_name b) = true -> free curly (binding_text b) = true.
Proof.
  intros H. unfold binding_text. destruct b as [n o i f c]. cbn [bd_name bd_optional bd_index bd_final bd_clone] in *.
  assert (D : forall n, free curly (digits n) = true) by (intros; now apply digits_free).
  destruct o as [[]|], f, c; rewrite !free_app, ?H, ?D; reflexivity.
Qed.
Definition clean_prod (p : prod_build) : Prop :=
  Forall (fun a => free curly (text (a_alias a)) = true) (pb_aliases p) /\ free curly (text (pb_ty p)) = true /\ forall c, code_body (text (pb_codeblock p)) = Val c -> balanced c.
Lemma stm_free p : clean_prod p -> free curly (stm_of p) = true.
Proof.
  intros [H _]. unfold stm_of. rewrite map_map. induction H as [|a l Ha _ IH]; [reflexivity|]. rewrite map_cons, sconcat_cons, free_app, IH, andb_true_r. now apply binding_free.
Qed.
Lemma read_reductor entry name ty i p s : write_reductor text entry name ty i p = Val s -> free special name = true -> free curly entry = true -> free curly ty = true -> clean_prod p ->
  forall rest m, read_items (S m) (s ++ rest) = prepend_items [fn_item entry name ty (i, p)] (read_items m rest).
Proof.
  intros E Hn He Ht Hp rest m. unfold write_reductor in E. destruct (code_body (text (pb_codeblock p))) as [c| |] eqn:Ec; try discriminate. cbn [bind] in E. apply Val_inj in E as <-.
  rewrite <- (items_nl m rest). apply items_step. unfold fn_item, code_of. cbn [fst snd]. rewrite Ec.
  rewrite <- (read_fn (fn_name name i) entry ty (fn_body (stm_of p) c) (nl ++ rest)); auto using fn_name_free.
  - do 2 f_equal. unfold fn_sig, fn_body, span_arg, stm_of. rewrite map_map, !sassoc. reflexivity.
  - apply closing_body; [now apply stm_free|]. now apply Hp.
Qed.
Lemma enum_in {A} (l : list A) : forall i x, In x (enum i l) -> In (snd x) l.
Proof. induction l as [|a l IH]; intros i x H; [easy|]. destruct H as [<-|H]; [now left|right; eauto]. Qed.
Lemma read_reductors entry name ty l : forall fs, mapM (fun x => write_reductor text entry name ty (fst x) (snd x)) l = Val fs -> free special name = true -> free curly entry = true -> free curly ty = true ->
  Forall (fun x => clean_prod (snd x)) l ->
  forall rest m, read_items (List.length l + m) (String.concat "" fs ++ rest) = prepend_items (map (fn_item entry name ty) l) (read_items m rest).
Proof.
  induction l as [|[i p] l IH]; intros fs E Hn He Ht Hl rest m.
  - injection E as <-. cbn. now rewrite prepend_nil.
  - cbn [mapM fst snd] in E. destruct (write_reductor text entry name ty i p) as [s| |] eqn:Es; try discriminate. cbn [bind] in E.
    destruct (mapM (fun x => write_reductor text entry name ty (fst x) (snd x)) l) as [fs'| |] eqn:E'; try discriminate. injection E as <-. inversion Hl as [|? ? Hp Hl']; subst. cbn [snd] in Hp.
    rewrite sconcat_cons, sassoc. cbn [List.length Nat.add]. rewrite (read_reductor _ _ _ _ _ _ Es) by assumption. rewrite (IH fs') by auto. now rewrite prepend_app.
Qed.
Definition clean_rule (e : string * list prod_build) : Prop := free special (fst e) = true /\ Forall clean_prod (snd e).
Lemma read_rule_items entry e s : write_rule_reduction text entry (fst e) (snd e) = Val s -> free curly entry = true -> clean_rule e ->
  forall rest m, read_items (List.length (rule_items entry e) + m) (s ++ rest) = prepend_items (rule_items entry e) (read_items m rest).
Proof.
  intros E He [Hn Hp] rest m. destruct e as [name prods]. cbn [fst snd] in *. unfold write_rule_reduction in E. unfold rule_items. cbn [fst snd].
  destruct prods as [|p0 prods]; [discriminate|]. cbn [expect nth_error bind] in E.
  destruct (mapM _ (enum 0 (p0 :: prods))) as [fs| |] eqn:Ef; try discriminate. cbn [bind] in E. apply Val_inj in E as <-.
  rewrite app_length, map_length, <- Nat.add_assoc, sassoc. rewrite (read_reductors _ _ _ _ _ Ef); auto.
  - rewrite <- prepend_app. f_equal. cbn [List.length Nat.add]. rewrite <- (items_nl m rest), <- (items_nl m (nl ++ rest)). apply items_step.
    rewrite <- (read_insert name (map (fun x => fn_name name (fst x)) (enum 0 (p0 :: prods)))); [|assumption|apply Forall_forall; intros n H; apply in_map_iff in H as (x & <- & _); now apply fn_name_free].
    rewrite map_map, !sassoc. reflexivity.
  - inversion Hp as [|? ? [_ [H _]] ?]. exact H.
  - apply Forall_forall. intros x Hx. apply enum_in in Hx. rewrite Forall_forall in Hp. auto.
Qed.
Lemma read_rules_items entry rules : forall ss, mapM (fun e => write_rule_reduction text entry (fst e) (snd e)) rules = Val ss -> free curly entry = true -> Forall clean_rule rules ->
  forall rest m, read_items (List.length (flat_map (rule_items entry) rules) + m) (String.concat "" ss ++ rest) = prepend_items (flat_map (rule_items entry) rules) (read_items m rest).
Proof.
  induction rules as [|e rules IH]; intros ss E He Hr rest m.
  - injection E as <-. cbn. now rewrite prepend_nil.
  - cbn [mapM] in E. destruct (write_rule_reduction text entry (fst e) (snd e)) as [s| |] eqn:Es; try discriminate. cbn [bind] in E.
    destruct (mapM _ rules) as [ss'| |] eqn:E'; try discriminate. injection E as <-. inversion Hr; subst.
    rewrite sconcat_cons, sassoc. cbn [flat_map]. rewrite app_length, <- Nat.add_assoc, (read_rule_items _ _ _ Es) by assumption. rewrite (IH ss') by auto. now rewrite prepend_app.
Qed.
Lemma read_uses l : Forall (fun i => free (";"%char :: curly) (text i) = true) l -> forall rest m,
  read_items (List.length l + m) (String.concat "" (map (fun i => tab ++ "use " ++ text i ++ ";" ++ nl)%string l) ++ rest) = prepend_items (map (fun i => IOther ("use " ++ text i)) l) (read_items m rest).
Proof.
  induction 1 as [|i l H _ IH]; intros rest m; [cbn; now rewrite prepend_nil|]. rewrite !map_cons, sconcat_cons, !sassoc. cbn [List.length Nat.add].
  match goal with |- read_items _ (tab ++ "use " ++ text i ++ ";" ++ nl ++ ?r) = _ => rewrite (items_step _ (IOther ("use " ++ text i)) (nl ++ r)) end; [rewrite items_nl, IH, prepend_app; reflexivity|].
  match goal with |- read_item (trim (tab ++ "use " ++ text i ++ ";" ++ ?r)) = _ => change (trim (tab ++ "use " ++ text i ++ ";" ++ r)) with ("use " ++ text i ++ String ";" r)%string; generalize r end.
  intros r. unfold read_item. change (after "fn " ("use " ++ text i ++ String ";" r)) with (@None string). change (after "map.insert(" ("use " ++ text i ++ String ";" r)) with (@None string).
  rewrite <- sassoc, up_to_free; [reflexivity| |reflexivity]. rewrite free_app. apply andb_true_iff. split; [reflexivity|now apply (free_sub (";"%char :: curly))].
Qed.
Definition all_items (entry : string) (b : builder) (rules : list (string * list prod_build)) : list item :=
  map (fun i => IOther ("use " ++ text i)) (b_imports b) ++ IOther "let mut map = lrp::ReductMap::new()" :: flat_map (rule_items entry) rules.
Theorem read_code_items entry b rules s : dump_reductor_text text entry b rules = Val s -> free curly entry = true -> Forall clean_rule rules -> Forall (fun i => free (";"%char :: curly) (text i) = true) (b_imports b) ->
  forall rest, read_code (s ++ rest) = Some (all_items entry b rules, ("map" ++ nl)%string, rest).
Proof.
  intros E He Hr Hi rest. unfold dump_reductor_text in E. destruct (String.eqb entry ""); [discriminate|].
  destruct (mapM _ rules) as [rs| |] eqn:Er; try discriminate. cbn [bind] in E. apply Val_inj in E as <-.
  unfold read_code. rewrite !sassoc, after_app.
  apply (items_fuel (List.length (b_imports b) + (1 + (List.length (flat_map (rule_items entry) rules) + 1)))); [|lia]. rewrite items_nl. unfold use_lines.
  rewrite read_uses by assumption. unfold all_items. cbn [Nat.add].
  rewrite (items_step _ (IOther "let mut map = lrp::ReductMap::new()") (nl ++ nl ++ String.concat "" rs ++ tab ++ "map" ++ nl ++ "}" ++ rest)) by reflexivity.
  rewrite !items_nl. rewrite (read_rules_items entry rules rs Er) by assumption.
  change (read_items 1 (tab ++ "map" ++ nl ++ "}" ++ rest)) with (Some (@nil item, ("map" ++ nl)%string, rest)). cbn [prepend_items]. now rewrite List.app_nil_r.
Qed.
End T.
