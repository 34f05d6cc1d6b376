(** The functions in the text wop writes are the reductors of the file. *)
From Coq Require Import List Bool Arith Lia Ascii String Permutation.
From Verif Require Import BTree Model Strings Base Spec Wop WopSpec WopFront WopP WopProc WopDump WopExport WopText WopTextSpec WopTextP WopRead WopSum RustSpec RustP RustItems.
Import ListNotations.
Local Open Scope string_scope.
Local Open Scope list_scope.
Local Open Scope nat_scope.

Lemma enum_nth {A} (l : list A) : forall i k, nth_error (enum k l) i = option_map (pair (k + i)) (nth_error l i).
Proof. induction l as [|a l IH]; intros [|i] k; simpl; auto. - now rewrite Nat.add_0_r. - rewrite IH. now rewrite Nat.add_succ_r. Qed.
Lemma flat_map_nil {A B} (f : A -> list B) l : (forall a, In a l -> f a = []) -> flat_map f l = [].
Proof. induction l as [|a l IH]; intros H; [reflexivity|]. simpl. rewrite (H a), IH; auto; [intros; apply H; now right|now left]. Qed.
Lemma flat_map_one {A B} (f : A -> list B) l i a b : nth_error l i = Some a -> f a = [b] -> (forall j a', nth_error l j = Some a' -> j <> i -> f a' = []) -> flat_map f l = [b].
Proof.
  revert l. induction i as [|i IH]; intros [|x l] E Hb H; try discriminate; simpl in *.
  - injection E as ->. rewrite Hb, flat_map_nil; [reflexivity|]. intros y Hy. apply In_nth_error in Hy as (j & Hj). apply (H (S j)); auto.
  - rewrite (H 0 x eq_refl) by easy. simpl. apply IH; auto. intros j y Hj N. apply (H (S j)); auto.
Qed.
Lemma free_subset p q s : (forall c, In c q -> In c p) -> free p s = true -> free q s = true.
Proof.
  intros H. unfold free. apply all_chars_impl. intros c Hc. apply negb_true_iff in Hc. apply negb_true_iff, not_true_iff_false. intros K. apply existsb_exists in K as (x & Hx & E).
  rewrite <- not_true_iff_false in Hc. apply Hc, existsb_exists. exists x. auto.
Qed.
Lemma ident_free n : all_chars ident_char n = true -> free curly n = true.
Proof.
  unfold free. apply all_chars_impl. intros c Hc. apply negb_true_iff, not_true_iff_false. intros K. apply existsb_exists in K as (x & Hx & E). apply Ascii.eqb_eq in E as <-. destruct Hx as [<-|[<-|[]]]; discriminate Hc.
Qed.
Lemma flat_map_flat_map {A B C} (f : A -> list B) (g : B -> list C) l : flat_map g (flat_map f l) = flat_map (fun x => flat_map g (f x)) l.
Proof. induction l as [|a l IH]; simpl; [reflexivity|]. now rewrite flat_map_app, IH. Qed.

Section T.
Variable text : span -> string.

Lemma skip_other f entry b rules : f (IOther "let mut map = lrp::ReductMap::new()") = [] -> (forall s, f (IOther s) = []) ->
  flat_map f (all_items text entry b rules) = flat_map (fun e => flat_map f (rule_items text entry e)) rules :> list (string * string).
Proof.
  intros H1 H2. unfold all_items. rewrite flat_map_app, flat_map_nil; [|intros i Hi; apply in_map_iff in Hi as (s & <- & _); auto]. cbn [app flat_map]. rewrite H1. cbn [app]. apply flat_map_flat_map.
Qed.
Lemma skip_other' f entry b rules : (forall s, f (IOther s) = []) ->
  flat_map f (all_items text entry b rules) = flat_map (fun e => flat_map f (rule_items text entry e)) rules :> list (list string).
Proof.
  intros H2. unfold all_items. rewrite flat_map_app, flat_map_nil; [|intros i Hi; apply in_map_iff in Hi as (s & <- & _); auto]. cbn [app flat_map]. rewrite H2. cbn [app]. apply flat_map_flat_map.
Qed.

Lemma rules_nth (rules : list (string * list prod_build)) i j e e' : NoDup (map fst rules) -> nth_error rules i = Some e -> nth_error rules j = Some e' -> j <> i -> fst e' <> fst e.
Proof.
  intros N E E' Hn H. apply Hn. rewrite NoDup_nth_error in N. apply (map_nth_error fst) in E, E'. apply N; [apply nth_error_Some; congruence|congruence].
Qed.

Lemma inserted_all entry b rules name prods : NoDup (map fst rules) -> In (name, prods) rules -> prods <> [] ->
  inserted name (all_items text entry b rules) = [map (fun x => fn_name name (fst x)) (enum 0 prods)].
Proof.
  intros N Hin Hne. unfold inserted. rewrite skip_other' by reflexivity. apply In_nth_error in Hin as (i & Hi).
  eapply flat_map_one; [exact Hi| |].
  - unfold rule_items. cbn [fst snd]. destruct prods as [|p0 ps]; [easy|]. rewrite flat_map_app, flat_map_nil; [|intros x Hx; apply in_map_iff in Hx as (y & <- & _); reflexivity].
    cbn [app flat_map]. rewrite String.eqb_refl. reflexivity.
  - intros j [n ps] Hj Hji. pose proof (rules_nth _ _ _ _ _ N Hi Hj Hji) as Hd. cbn [fst] in Hd. unfold rule_items. cbn [fst snd]. destruct ps as [|p0 ps]; [reflexivity|].
    rewrite flat_map_app, flat_map_nil; [|intros x Hx; apply in_map_iff in Hx as (y & <- & _); reflexivity]. cbn [app flat_map]. destruct (String.eqb_spec n name); [easy|reflexivity].
Qed.
Lemma defined_all entry b rules name prods i p p0 : NoDup (map fst rules) -> In (name, prods) rules -> nth_error prods 0 = Some p0 -> nth_error prods i = Some p ->
  defined (fn_name name i) (all_items text entry b rules) = [(fn_sig entry (text (pb_ty p0)), fn_body (stm_of text p) (code_of text p))].
Proof.
  intros N Hin H0 Hp. unfold defined. rewrite skip_other by reflexivity. apply In_nth_error in Hin as (k & Hk).
  eapply flat_map_one; [exact Hk| |].
  - unfold rule_items. cbn [fst snd]. destruct prods as [|q0 ps]; [discriminate|]. injection H0 as ->. rewrite flat_map_app. cbn [app flat_map]. rewrite List.app_nil_r.
    eapply flat_map_one with (i := i).
    + rewrite nth_error_map, enum_nth, Hp. cbn [option_map]. reflexivity.
    + unfold fn_item. cbn [fst snd Nat.add]. rewrite String.eqb_refl. reflexivity.
    + intros j a Hj Hji. rewrite nth_error_map, enum_nth in Hj. destruct (nth_error (p0 :: ps) j) as [q|]; [|discriminate]. injection Hj as <-. unfold fn_item. cbn [fst snd Nat.add].
      destruct (String.eqb_spec (fn_name name j) (fn_name name i)) as [E|E]; [|reflexivity]. apply fn_name_inj in E as [_ E]. easy.
  - intros j [n ps] Hj Hji. pose proof (rules_nth _ _ _ _ _ N Hk Hj Hji) as Hd. cbn [fst] in Hd. unfold rule_items. cbn [fst snd]. destruct ps as [|q0 ps]; [reflexivity|].
    rewrite flat_map_app. cbn [app flat_map]. rewrite List.app_nil_r. apply flat_map_nil. intros x Hx. apply in_map_iff in Hx as (y & <- & _). unfold fn_item.
    destruct (String.eqb_spec (fn_name n (fst y)) (fn_name name i)) as [E|E]; [|reflexivity]. apply fn_name_inj in E as [E _]. easy.
Qed.

Lemma dump_text_dumps entry b rules s : msorted (b_rules b) -> Permutation rules (b_rules b) -> dump_reductor_text text entry b rules = Val s -> exists rs, dump_reductor text b = Val rs.
Proof.
  intros Hs P E. unfold dump_reductor_text in E. destruct (String.eqb entry ""); [discriminate|]. apply bind_val in E as (rs & E & _). apply dump_reductor_total; auto.
  intros name prods Hg. apply bm_get_in in Hg. apply (Permutation_in _ (Permutation_sym P)) in Hg. apply mapM_val in E. destruct (Forall2_in_l_ex _ _ _ _ E Hg) as (y & _ & Ey). cbn [fst snd] in Ey.
  unfold write_rule_reduction in Ey. apply bind_val in Ey as (p0 & E0 & Ey). split; [destruct prods; [discriminate|easy]|].
  apply bind_val in Ey as (fs & Ef & _). apply mapM_val in Ef. intros p Hp. apply In_nth_error in Hp as (i & Hi).
  assert (Hx : In (i, p) (enum 0 prods)). { eapply nth_error_In with (n := i). rewrite enum_nth, Hi. reflexivity. }
  destruct (Forall2_in_l_ex _ _ _ _ Ef Hx) as (z & _ & Ez). unfold write_reductor in Ez. cbn [fst snd] in Ez. apply bind_val in Ez as (c & Ec & _). exists c. now apply code_body_spec.
Qed.

Variable order : prod_build -> list prod_build -> list span -> list span.
Hypothesis Ho : iterates order.
Variable dbg : bool.

Lemma clean_rules ts ds b : reads text order dbg ts (Val (inl b)) -> file_toks ts ds -> clean_file text ds ->
  Forall (clean_rule text) (b_rules b) /\ Forall (fun i => free (";"%char :: curly) (text i) = true) (b_imports b).
Proof.
  intros Hr Hf [Hu Hc]. destruct (reads_file text order dbg Ho ts ds b Hr Hf) as (Hv & (Hi & _ & Hn & Hrec) & Hs). split.
  - apply Forall_forall. intros [name prods] Hin. apply (bm_in_get _ _ _ Hs) in Hin.
    assert (Hnm : In name (rule_names text ds)) by (apply Hn; eauto). unfold rule_names in Hnm. apply in_flat_map in Hnm as ([nm ty alts|u|tk al] & Hd & Hnm); try easy. destruct Hnm as [<-|[]].
    destruct (Hc _ _ _ Hd) as (H1 & H2 & H3). apply in_split in Hd as (ds1 & ds2 & E). destruct (Hrec _ _ _ _ _ E) as (prods' & Hg & Hbu & Hbi). rewrite Hin in Hg. injection Hg as <-.
    split; [exact H1|]. cbn [snd]. apply Forall_forall. intros p Hp. apply In_nth_error in Hp as (i & Hp).
    destruct (Forall2_nth _ _ _ _ _ Hbu Hp) as ([[pipe cb] w] & Hi' & _ & Ecb & Ety). cbn [fst snd] in Ecb.
    destruct (Forall2_nth _ _ _ _ _ Hbi Hp) as ([alt r] & Hx & _ & _ & _ & Hnames). cbn [fst snd] in Hnames.
    assert (Ha : In (pipe, cb) alts). { apply nth_error_In, in_flat_map in Hi' as (a & Ha & Hi'). apply in_map_iff in Hi' as (y & [= -> _] & _). exact Ha. }
    assert (Ha' : In alt alts). { apply nth_error_In, in_flat_map in Hx as (a & Ha' & Hx). apply in_map_iff in Hx as (y & [= -> _] & _). exact Ha'. }
    destruct (H3 _ _ Ha) as [H4 _]. destruct alt as [pipe' cb']. destruct (H3 _ _ Ha') as [_ H5]. split; [|split].
    + apply Forall_forall. intros a Hina. apply ident_free. assert (K : is_name (text (a_alias a)) = true).
      { apply H5, Hnames. rewrite map_map. apply (in_map (fun a => text (a_alias a))). exact Hina. }
      unfold is_name in K. apply andb_prop in K as [K _]. now apply andb_prop in K as [_ K].
    + now rewrite Ety.
    + rewrite Ecb. intros c Ec. apply code_body_spec in Ec. auto.
  - rewrite Hi. apply Forall_forall. intros s Hin. unfold imports in Hin. apply in_flat_map in Hin as ([nm ty alts|u|tk al] & Hd & Hin); try easy. destruct Hin as [<-|[]]. auto.
Qed.

Theorem reductor_text ts ds b es rules entry s : reads text order dbg ts (Val (inl b)) -> file_toks ts ds -> clean_file text ds -> free curly entry = true ->
  Permutation es (dump_grammar text b) -> Permutation rules (b_rules b) -> dump_reductor_text text entry b rules = Val s -> forall rest,
  exists items, read_code (s ++ rest) = Some (items, ("map" ++ nl)%string, rest) /\
    forall ds1 name ty alts ds2, ds = ds1 ++ DRule name ty alts :: ds2 ->
    exists fns, inserted (text name) items = [fns] /\ (forall i, (exists w, prod_at (grammar_map es) (text name) i w) <-> exists f, nth_error fns i = Some f) /\
      forall i alt r, nth_error (flat_map (fun alt => map (pair alt) (runs (fst alt))) alts) i = Some (alt, r) ->
        prod_at (grammar_map es) (text name) i (map (fun s => text (resolve text ds1 s)) (fst r)) /\
        exists f body stm c bs, nth_error fns i = Some f /\ defined f items = [(("toks: &[" ++ entry ++ "]) -> lrp::Meta<" ++ text ty ++ "> ")%string, body)] /\
          read_body body = Some ((" " ++ stm ++ " " ++ c)%string, (", lrp::Span::new(toks[0].item.span.start, toks.last().unwrap().item.span.end))" ++ nl ++ tab)%string) /\
          text (snd alt) = ("->" ++ c ++ "%")%string /\ stm = String.concat "" (map binding_text bs) /\ emits text order dbg ts alt r bs c.
Proof.
  intros Hr Hf Hc He Pe Pr Hd rest. destruct (reads_file text order dbg Ho ts ds b Hr Hf) as (Hv & (Hi & _ & Hn & Hrec) & Hs).
  destruct (clean_rules ts ds b Hr Hf Hc) as [Hcr Hci]. assert (Hcr' : Forall (clean_rule text) rules) by (eapply Permutation_Forall; [apply Permutation_sym; exact Pr|exact Hcr]).
  exists (all_items text entry b rules). split; [now apply (read_code_items text)|]. intros ds1 name ty alts ds2 E.
  destruct (dump_text_dumps entry b rules s Hs Pr Hd) as (rs & Hrs). assert (N : NoDup (map fst rules)). { eapply Permutation_NoDup; [apply Permutation_map, Permutation_sym; exact Pr|]. now apply sorted_NoDup. }
  destruct (Hrec _ _ _ _ _ E) as (prods & Hg & Hbu & Hbi). destruct (sum_lined_up text order Ho dbg ts ds b es rs rs Hr Hf Pe Hrs (Permutation_refl _) _ _ _ _ _ E) as (fs & Hgf & Hlen & Hprod).
  destruct (dump_reductor_spec text b rs rs Hs Hrs (Permutation_refl _) _ _ Hg) as (fs' & Hgf' & Hl & Hfi). rewrite Hgf in Hgf'. injection Hgf' as <-.
  assert (Hin : In (text name, prods) rules) by (apply (Permutation_in _ (Permutation_sym Pr)), bm_get_in; exact Hg).
  assert (Hne : prods <> []). { destruct (proj1 (dump_reductor_total text b Hs) (ex_intro _ rs Hrs) _ _ Hg) as [H _]. exact H. }
  exists (map (fun x => fn_name (text name) (fst x)) (enum 0 prods)). split; [now apply inserted_all|]. split.
  - intros i. rewrite Hlen. assert (X : forall T (l : list T), (exists f, nth_error l i = Some f) <-> i < List.length l). { intros T l. rewrite <- nth_error_Some. destruct (nth_error l i); split; eauto; intros; [discriminate|destruct H; discriminate|easy]. }
    rewrite !X, Hl, map_length. assert (L : forall k, List.length (enum k prods) = List.length prods) by (clear; induction prods; intros; simpl; auto). now rewrite L.
  - intros i alt r Hx. destruct (Hprod i alt r Hx) as (Hpa & bs & c & Hbs & Hcode). split; [exact Hpa|].
    destruct (nth_error prods i) as [p|] eqn:Hp; [|exfalso; apply nth_error_None in Hp; assert (i < List.length fs) by (apply nth_error_Some; congruence); lia].
    destruct (Hfi i p Hp) as (c' & Hf' & Hc'). rewrite Hbs in Hf'. injection Hf' as -> <-.
    destruct prods as [|p0 ps] eqn:Eps; [easy|]. exists (fn_name (text name) i), (fn_body (stm_of text p) c), (stm_of text p), c, (map (write_alias text) (pb_aliases p)).
    assert (Hty : pb_ty p0 = ty). { destruct (Forall2_nth _ _ _ 0 p0 Hbu eq_refl) as (x & _ & _ & _ & Hty). exact Hty. }
    split; [rewrite nth_error_map, enum_nth, Hp; reflexivity|]. split.
    { rewrite (defined_all entry b rules (text name) (p0 :: ps) i p p0); auto. rewrite Hty. unfold fn_sig. unfold code_of. apply code_body_spec in Hc'. rewrite Hc'. reflexivity. }
    rewrite Forall_forall in Hcr'. destruct (Hcr' _ Hin) as [_ Hcp]. rewrite Forall_forall in Hcp. cbn [snd] in Hcp. specialize (Hcp p (nth_error_In _ _ Hp)).
    split; [apply read_body_fn; [now apply stm_free|apply Hcp; now apply code_body_spec]|]. split; [exact Hcode|]. split; [reflexivity|].
    exists b, rs, ds, ds1, name, ty, alts, ds2, fs, i. repeat split; auto. apply of_list_get; [|exact Hgf]. rewrite (dump_names text b rs Hrs). now apply sorted_NoDup.
Qed.

Theorem reductor_items ts ds b es rules entry s : reads text order dbg ts (Val (inl b)) -> file_toks ts ds -> clean_file text ds -> free curly entry = true ->
  Permutation es (dump_grammar text b) -> Permutation rules (b_rules b) -> dump_reductor_text text entry b rules = Val s -> forall rest,
  exists items, read_code (s ++ rest) = Some (items, ("map" ++ nl)%string, rest) /\ reductors_for text ds entry (grammar_map es) items.
Proof.
  intros Hr Hf Hc He Pe Pr Hd rest. destruct (reductor_text ts ds b es rules entry s Hr Hf Hc He Pe Pr Hd rest) as (items & H1 & H2). exists items. split; [exact H1|].
  intros ds1 name ty alts ds2 E. destruct (H2 _ _ _ _ _ E) as (fns & H3 & H4 & H5). exists fns. split; [exact H3|]. split; [exact H4|].
  intros i alt r Hx. destruct (H5 i alt r Hx) as (H6 & f & body & stm & c & bs & H7 & H8 & H9 & H10 & -> & H11). split; [exact H6|]. exists f, body, (String.concat "" (map binding_text bs)), c. repeat split; auto.
  intros Hg Hs Hne Hk A toks Hl. apply (emits_text text order Ho dbg ts alt r bs c); auto. intros n Hn. split; [|intros ->; auto].
  destruct Hc as [_ Hc]. destruct (Hc name ty alts) as (_ & _ & Ha); [rewrite E; apply in_or_app; right; now left|]. destruct alt as [pipe cb]. apply (Ha pipe cb); [|exact Hn].
  apply nth_error_In, in_flat_map in Hx as (a & Hin & Hx). apply in_map_iff in Hx as (y & [= -> _] & _). exact Hin.
Qed.
End T.
