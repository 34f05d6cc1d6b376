(** The values carried by tokens do not influence the driver (C84); what [Parser::cloned] computes (C85). *)
From Coq Require Import List Bool Arith Lia.
From Verif Require Import BTree Model Base Spec SpecP GrammarP FirstFollow Closure ActTab LR Sound RunFacts Interface Wrap Mono Final Export.
Import ListNotations.

(** two results are both values, the same panic or both out of fuel *)
Definition same_res {A B} (R : A -> B -> Prop) (x : res A) (y : res B) : Prop :=
  match x, y with
  | Val a, Val b => R a b
  | Panic p, Panic q => p = q
  | Fuel, Fuel => True
  | _, _ => False
  end.

(** two parse results differ at most in the value *)
Definition same_verdict {T M1 M2} (r1 : presult T M1) (r2 : presult T M2) : Prop :=
  match r1, r2 with
  | POk _, POk _ => True
  | PErr e1, PErr e2 => e1 = e2
  | _, _ => False
  end.

Section Values.
Context {T : Type} {OT : Ord T} {M1 M2 : Type}.

(** both maps have a reductor for production [i] of [A], or neither has *)
Definition same_domain (maps1 : reductmap T M1) (maps2 : reductmap T M2) : Prop :=
  forall A i, (exists fs f, bm_get A maps1 = Some fs /\ nth_error fs i = Some f) <-> (exists fs f, bm_get A maps2 = Some fs /\ nth_error fs i = Some f).

Record alike (d1 : dfa T M1) (d2 : dfa T M2) : Prop := {
  k_buffer : map tk_ty (d_buffer d1) = map tk_ty (d_buffer d2);
  k_states : d_states d1 = d_states d2;
  k_items : map tk_ty (d_items d1) = map tk_ty (d_items d2);
  k_table : d_table d1 = d_table d2;
  k_top : d_top d1 = d_top d2;
  k_finished : d_finished d1 = d_finished d2;
  k_maps : same_domain (d_reductors d1) (d_reductors d2);
  k_eof : d_eof d1 = d_eof d2
}.

Lemma map_nil_iff {A B C} (f : A -> C) (g : B -> C) l1 l2 : map f l1 = map g l2 -> (l1 = [] <-> l2 = []).
Proof. destruct l1, l2; simpl; intros H; try discriminate; split; auto; discriminate. Qed.

Lemma alike_pop d1 d2 name pr : alike d1 d2 -> same_res alike (dfa_pop d1 name pr) (dfa_pop d2 name pr).
Proof.
  intros [K1 K2 K3 K4 K5 K6 K7 K8]. unfold dfa_pop.
  assert (length (d_items d1) = length (d_items d2)) as El by (rewrite <- (map_length tk_ty (d_items d1)), K3; apply map_length).
  rewrite El. destruct (length (d_items d2) <? length (fst pr)); [reflexivity|].
  pose proof (K7 name (snd pr)) as K.
  destruct (bm_get name (d_reductors d1)) as [fs1|] eqn:E1, (bm_get name (d_reductors d2)) as [fs2|] eqn:E2; cbn [expect bind].
  - destruct (nth_error fs1 (snd pr)) as [f1|] eqn:F1, (nth_error fs2 (snd pr)) as [f2|] eqn:F2; cbn [expect bind].
    + rewrite K2. destruct (nth_error (d_states d2) (length (fst pr))) as [q|]; cbn [expect bind]; [|reflexivity].
      constructor; cbn [d_buffer d_states d_items d_table d_top d_finished d_reductors d_eof]; auto.
      cbn [map tk_ty]. rewrite <- !skipn_map. now rewrite K3.
    + exfalso. destruct (proj1 K) as (fs & f & [= <-] & H); eauto. congruence.
    + exfalso. destruct (proj2 K) as (fs & f & [= <-] & H); eauto. congruence.
    + reflexivity.
  - destruct (nth_error fs1 (snd pr)) as [f1|] eqn:F1; [|reflexivity]. exfalso. destruct (proj1 K) as (fs & f & [=] & _); eauto.
  - destruct (nth_error fs2 (snd pr)) as [f2|] eqn:F2; [|reflexivity]. exfalso. destruct (proj2 K) as (fs & f & [=] & _); eauto.
  - reflexivity.
Qed.

Definition alike_out (r1 : dfa T M1 * outcome T) (r2 : dfa T M2 * outcome T) : Prop := alike (fst r1) (fst r2) /\ snd r1 = snd r2.

Lemma alike_travel fuel : forall d1 d2 s, alike d1 d2 -> same_res alike_out (travel fuel d1 s) (travel fuel d2 s).
Proof.
  induction fuel as [|n IH]; intros d1 d2 s K; [exact I|]. pose proof K as [K1 K2 K3 K4 K5 K6 K7 K8]. cbn [travel]. rewrite K4, K5.
  destruct (nth_error (d_table d2) (d_top d2)) as [row|]; [|split; auto].
  destruct (bm_get s row) as [[to|to|name pr| |a b]|]; try (split; auto; fail).
  - unfold dfa_shift. destruct (d_buffer d1) as [|t1 b1] eqn:B1, (d_buffer d2) as [|t2 b2] eqn:B2; try discriminate K1.
    + split; auto.
    + injection K1 as H1 H2. split; auto. constructor; cbn [fst d_buffer d_states d_items d_table d_top d_finished d_reductors d_eof]; auto.
      * now rewrite K2.
      * cbn [map]. now rewrite H1, K3.
  - unfold dfa_goto. split; auto. constructor; cbn [fst d_buffer d_states d_items d_table d_top d_finished d_reductors d_eof]; auto. now rewrite K2.
  - pose proof (alike_pop d1 d2 name pr K) as P. destruct (dfa_pop d1 name pr) as [d1'|p|], (dfa_pop d2 name pr) as [d2'|q|]; simpl in P; try contradiction; subst; try reflexivity.
    cbn [bind]. now apply IH.
  - unfold dfa_accept. split.
    + constructor; cbn [fst d_buffer d_states d_items d_table d_top d_finished d_reductors d_eof]; auto.
    + cbn [snd]. destruct (d_buffer d1), (d_buffer d2); try discriminate K1; reflexivity.
Qed.

Lemma alike_look d1 d2 : alike d1 d2 -> lookahead d1 = lookahead d2.
Proof.
  intros [K1 _ _ _ _ _ _ K8]. unfold lookahead. destruct (d_buffer d1), (d_buffer d2); try discriminate K1; auto. simpl in K1. congruence.
Qed.

Lemma alike_start fuel : forall d1 d2, alike d1 d2 -> same_res alike_out (dfa_start fuel d1) (dfa_start fuel d2).
Proof.
  induction fuel as [|n IH]; intros d1 d2 K; [exact I|]. cbn [dfa_start]. rewrite (k_finished _ _ K).
  destruct (d_finished d2); [split; auto|]. rewrite (alike_look _ _ K).
  pose proof (alike_travel n d1 d2 (lookahead d2) K) as H.
  destruct (travel n d1 (lookahead d2)) as [[e1 o1]|p|], (travel n d2 (lookahead d2)) as [[e2 o2]|q|]; simpl in H; try contradiction; subst; try reflexivity.
  destruct H as [H1 H2]. cbn [fst snd] in *. subst o2. cbn [bind]. destruct o1 as [|e]; [now apply IH|]. split; auto.
Qed.

(** *** C84 *)
Lemma verdict_same (t : tabler T) (maps1 : reductmap T M1) (maps2 : reductmap T M2) input1 input2 fuel :
  same_domain maps1 maps2 -> map tk_ty input1 = map tk_ty input2 ->
  same_res same_verdict (parser_parse fuel t input1 maps1) (parser_parse fuel t input2 maps2).
Proof.
  intros Hm Hi. unfold parser_parse, parser_dfa. destruct (nth_error _ 0) as [e|]; cbn [expect bind]; [|reflexivity].
  pose proof (alike_start fuel (dfa_new input1 (t_actions t) maps1 e) (dfa_new input2 (t_actions t) maps2 e)) as H.
  assert (alike (dfa_new input1 (t_actions t) maps1 e) (dfa_new input2 (t_actions t) maps2 e)) as K by (constructor; auto).
  specialize (H K).
  destruct (dfa_start fuel (dfa_new input1 (t_actions t) maps1 e)) as [[e1 o1]|p|], (dfa_start fuel (dfa_new input2 (t_actions t) maps2 e)) as [[e2 o2]|q|];
    simpl in H; try contradiction; subst; try reflexivity.
  destruct H as [H1 H2]. cbn [fst snd] in *. subst o2. cbn [bind]. destruct o1 as [|er]; [|reflexivity].
  pose proof (k_items _ _ H1) as Hit. destruct (d_items e1), (d_items e2); try discriminate Hit; cbn; auto.
Qed.

Lemma verdict_eq (t : tabler T) (maps1 : reductmap T M1) (maps2 : reductmap T M2) input1 input2 fuel :
  same_domain maps1 maps2 -> map tk_ty input1 = map tk_ty input2 ->
  match parser_parse fuel t input1 maps1, parser_parse fuel t input2 maps2 with
  | Val (POk _), Val (POk _) => True
  | Val (PErr e1), Val (PErr e2) => e1 = e2
  | Panic p1, Panic p2 => p1 = p2
  | Fuel, Fuel => True
  | _, _ => False
  end.
Proof.
  intros Hm Hi. pose proof (verdict_same t maps1 maps2 input1 input2 fuel Hm Hi) as H.
  destruct (parser_parse fuel t input1 maps1) as [[]| |], (parser_parse fuel t input2 maps2) as [[]| |]; exact H.
Qed.
End Values.

Section Cloned.
Context {T : Type} {OT : Ord T}.
Variables (dbg : bool) (start eof : T) (rules : rulemap T) (g : grammar T).
Hypothesis W : wf_rules rules.
Hypothesis Hg : grammar_new dbg start rules eof = Val g.

Lemma transparent_get {M} (f : reductfn T M) A fs i h : bm_get A (transparent g f) = Some fs -> nth_error fs i = Some h -> h = f.
Proof.
  intros H Hi. unfold transparent in H. apply bm_of_list_get in H. apply in_map_iff in H as (r & [= _ <-] & _).
  rewrite nth_error_map in Hi. destruct (nth_error (r_prods r) i); [|discriminate]. now injection Hi.
Qed.

Lemma cloned_value k t dflt : makes k dbg g t -> term rules eof -> start_fresh rules start ->
  forall input v, parses t input (cloned_map g dflt) (POk v) ->
  exists u X w1 w2, prod_at rules start 0 (u ++ [X]) /\ input = w1 ++ w2 /\ derives rules u (map tk_ty w1) /\
    ((term rules X /\ exists tok, w2 = [tok] /\ tk_ty tok = X /\ v = tk_item tok) \/
     (nonterm rules X /\ exists i rhs, prod_at rules X i (v :: rhs) /\ derives rules (v :: rhs) (map tk_ty w2))).
Proof.
  intros Hm He Hf input v Hp. destruct (parses_evals _ _ _ _ _ W Hg _ _ _ Hm He _ _ Hf Hp) as (rhs & its & it & H1 & H2 & ->).
  destruct (makes_tabler _ _ _ _ _ W Hg _ _ Hm) as (t0 & _ & F & _). pose proof (tf_noempty _ _ _ _ _ _ F) as Hne. clear F.
  pose proof (proj2 (evals_ty rules _) _ _ _ H2) as Et. rewrite map_app in Et. cbn [map] in Et. subst rhs.
  destruct (evals_app rules _ _ _ _ _ H2) as (w1 & w2 & t1 & t2 & -> & E & H3 & H4). remember (map tk_ty its) as u eqn:Eu. remember (tk_ty it) as Y eqn:EY.
  inversion H4 as [|Y' Ys v1 v2 it' its' H5 H6 Q1 Q2 Q3]. subst Y' Ys w2 t2. inversion H6. subst v2 its'. apply app_inj_tail in E as [<- <-]. rewrite app_nil_r in *. clear H4 H6.
  exists u, Y, w1, v1. split; auto. split; auto. split; [apply (proj2 (evals_derives _ _) _ _ _ H3)|].
  inversion H5 as [tok Ht|A i rhs w its' fs f Hpr Hs Hfs Hi]; subst.
  - left. split; auto. exists it. auto.
  - right. split; [destruct Hpr as (r & kk & Hr & _); now exists r|]. unfold cloned_map in Hfs. rewrite (transparent_get _ _ _ _ _ Hfs Hi).
    pose proof (Hne _ _ _ Hpr) as N. pose proof (proj1 (proj2 (evals_derives _ _) _ _ _ Hs)) as Hd. cbn [tk_item].
    inversion Hs as [|Z Zs a b z zs Q1 Q2]; subst; [congruence|].
    assert (tk_ty z = Z) as Ez by (inversion Q1; auto). rewrite Ez. eauto.
Qed.
End Cloned.

(** ** [start] called again (C86) *)
Section Again.
Context {T : Type} {OT : Ord T} {M : Type}.

Lemma travel_finishes fuel : forall (d d' : dfa T M) s, travel fuel d s = Val (d', Err IncompleteExec) -> d_finished d' = true.
Proof.
  induction fuel as [|n IH]; intros d d' s; simpl; [discriminate|]. destruct (nth_error (d_table d) (d_top d)) as [row|]; [|discriminate].
  destruct (bm_get s row) as [[to|to|A pr| |a b]|]; unfold dfa_shift, dfa_goto, dfa_accept; try discriminate.
  - destruct (d_buffer d); discriminate.
  - intros E. apply bind_val in E as (d3 & _ & E2). eauto.
  - destruct (d_buffer d); intros [= <-]; reflexivity.
Qed.

Lemma start_finishes fuel : forall (d d' : dfa T M) o, dfa_start fuel d = Val (d', o) -> o = Ok \/ o = Err IncompleteExec -> d_finished d' = true.
Proof.
  induction fuel as [|n IH]; intros d d' o E Ho; [discriminate|]. cbn [dfa_start] in E. destruct (d_finished d) eqn:Ef; [injection E as <- <-; auto|].
  apply bind_val in E as ([d1 o1] & E1 & E2). destruct o1 as [|e]; [eauto|]. injection E2 as <- <-. destruct Ho as [|[= ->]]; [discriminate|].
  eapply travel_finishes; eauto.
Qed.

Lemma start_again_ok (d d' : dfa T M) o fuel : dfa_start fuel d = Val (d', o) -> o = Ok \/ o = Err IncompleteExec ->
  forall fuel', dfa_start (S fuel') d' = Val (d', Ok).
Proof. intros E Ho fuel'. cbn [dfa_start]. now rewrite (start_finishes _ _ _ _ E Ho). Qed.
End Again.

Section GotoClean.
Context {T : Type} {OT : Ord T}.
Variables (g : grammar T) (start eof : T) (p0 : production T) (sts : list (state T)) (sfk : state T -> option nat) (lookf : position T -> res (bset T)) (acts : acttable T).
Hypothesis L : lr0 g start eof p0 sts sfk lookf acts.
Hypothesis Hterm : forall q A pr x, hasl sts lookf q A pr (length (fst pr)) x -> term (g_rules g) x.

Lemma goto_clean q A a b : nonterm (g_rules g) A -> entry acts q A <> Some (Conflict a b).
Proof.
  intros HA. unfold entry. destruct (nth_error acts q) as [m|] eqn:E; [|discriminate]. intros Ht.
  apply (row_spec' _ _ _ _ _ _ _ _ L) in E as (row & Er & Hok).
  destruct Hok as (_ & H & Hw). destruct (Hw _ _ Ht eq_refl) as (x & y & Hx & Hy & N). apply N. clear N.
  assert (forall act, In act (leaves (Conflict a b)) -> exists n, act = Goto n /\ sfk (sym_filter row A) = Some n) as G.
  { intros act Ha. destruct (proj1 (H A act)) as (pos & Hp & Hd); eauto. pose proof (done_point _ _ _ _ _ _ _ _ L q row pos Er Hp) as Hdone.
    inversion Hd as [t n Et Hx' Hs|t n Et Hx' Hs|t look Et Hl Hi Hn|t look Et Hl Hi Hn]; subst.
    - contradiction.
    - eauto.
    - exfalso. specialize (Hterm q (p_rule pos) (p_seq pos) A). rewrite <- Hdone in Hterm by auto.
      apply Hterm; [|exact HA]. exists row, (p_look pos), look. destruct pos; auto.
    - exfalso. specialize (Hterm q (p_rule pos) (p_seq pos) A). rewrite <- Hdone in Hterm by auto.
      apply Hterm; [|exact HA]. exists row, (p_look pos), look. destruct pos; auto. }
  destruct (G x Hx) as (n & -> & H1), (G y Hy) as (n' & -> & H2). congruence.
Qed.
End GotoClean.

Section AgainErr.
Context {T : Type} {OT : Ord T} {M : Type}.
Variables (dbg : bool) (start eof : T) (rules : rulemap T) (g : grammar T).
Hypothesis W : wf_rules rules.
Hypothesis Hg : grammar_new dbg start rules eof = Val g.

Lemma start_again_err k t (maps : reductmap T M) input d d' e fuel : makes k dbg g t -> term rules eof ->
  (forall a b, e = ConflictErr a b -> dbg = true \/ only_terminals t) ->
  Forall (term rules) (map tk_ty input) -> parser_dfa t input maps = Val d -> dfa_start fuel d = Val (d', Err e) -> e <> IncompleteExec ->
  exists fuel', dfa_start fuel' d' = Val (d', Err e).
Proof.
  intros Hm He Hc Ht Hd E Ne. rewrite (makes_dfa _ _ _ _ _ W Hg maps _ _ Hm input) in Hd. injection Hd as <-.
  pose proof (Wr _ _ _ _ _ Hg) as Er. assert (term (g_rules g) eof) as He' by now rewrite Er.
  destruct (Wp0 _ _ _ _ _ W Hg) as (p0 & Hp0 & _).
  assert (exists sfk lookf, lr0 g start eof p0 (t_states t) sfk lookf (t_actions t) /\
    ((exists a b, e = ConflictErr a b) -> forall q A pr x, hasl (t_states t) lookf q A pr (length (fst pr)) x -> term (g_rules g) x)) as (sfk & lookf & L & Hl).
  { destruct e as [| |a b| | |];
      try (destruct (makes_made _ _ _ _ _ W Hg _ _ _ Hm Hp0) as (sfk & lookf & X); exists sfk, lookf; split; [eapply m_lr0; eauto|intros (a & b & [=])]).
    destruct (makes_lookterm _ _ _ _ _ W Hg _ _ _ He Hm (Hc _ _ eq_refl) Hp0) as (sfk & lookf & L & Hl). exists sfk, lookf. split; auto. }
  assert (runs (dfa_new input (t_actions t) maps eof) (d', Err e)) as R by (exists fuel; exact E).
  apply runs_steps in R as (d1 & St & R & [[_ Q]|(d2 & e' & Ef & S2 & [= <- <-])]); [discriminate|]. rewrite <- Er in Ht.
  destruct (steps_vinv _ _ _ _ _ _ _ _ L He' maps _ _ St Ht) as (Hs & Hter & _).
  destruct (step_inv' _ _ _ _ _ _ _ _ L maps He' _ _ _ Hs Hter S2) as [SR _].
  assert (d' = d1) as ->.
  { inversion SR as [| | | | | | | |A pr q a b fs f H1 H2 H3 H4 H5 H6 H7]; subst; auto; [congruence|]. exfalso.
    apply (entry_reduce _ _ _ _ _ _ _ _ L) in H1 as [_ H1]. 
    refine (goto_clean _ _ _ _ _ _ _ _ L (Hl _) _ _ _ _ _ H5); [eauto|].
    destruct H1 as (row & l & look & G1 & G2 & _). destruct (l_valid _ _ _ _ _ _ _ _ L (d_top d1) A pr (length (fst pr))) as [(r & kk & G3 & _) _]; [exists row, l; auto|].
    exists r. exact G3. }
  destruct S2 as (f2 & S2). exists (S f2). cbn [dfa_start]. rewrite Ef, S2. reflexivity.
Qed.
End AgainErr.

(** ** the columns of the table (C87) *)
Section Columns.
Context {T : Type} {OT : Ord T}.
Variables (dbg : bool) (start eof : T) (rules : rulemap T) (g : grammar T).
Hypothesis W : wf_rules rules.
Hypothesis Hg : grammar_new dbg start rules eof = Val g.

Lemma terminal_column k t q row x a n : makes k dbg g t -> nth_error (t_actions t) q = Some row -> bm_get x row = Some a -> term rules x -> ~ inside (Goto n) a.
Proof.
  intros Hm Eq Ea Hx Hi. destruct (Wp0 _ _ _ _ _ W Hg) as (p0 & Hp0 & _). destruct (makes_made _ _ _ _ _ W Hg _ _ _ Hm Hp0) as (sfk & lookf & X).
  pose proof (m_lr0 _ _ _ _ _ _ _ _ _ _ X) as L. pose proof (Wr _ _ _ _ _ Hg) as Er.
  apply (row_spec' _ _ _ _ _ _ _ _ L) in Eq as (st & _ & _ & H & _). apply inside_leaves in Hi.
  destruct (proj1 (H x (Goto n))) as (pos & _ & Hd); eauto. inversion Hd; subst. contradiction.
Qed.

Lemma nonterminal_column k t q row A a : makes k dbg g t -> term rules eof -> dbg = true \/ only_terminals t ->
  nth_error (t_actions t) q = Some row -> bm_get A row = Some a -> nonterm rules A -> exists n, a = Goto n.
Proof.
  intros Hm He Ho Eq Ea HA. destruct (Wp0 _ _ _ _ _ W Hg) as (p0 & Hp0 & _).
  destruct (makes_lookterm _ _ _ _ _ W Hg _ _ _ He Hm Ho Hp0) as (sfk & lookf & L & Hl). pose proof (Wr _ _ _ _ _ Hg) as Er. rewrite <- Er in HA.
  assert (entry (t_actions t) q A = Some a) as E by (unfold entry; now rewrite Eq).
  destruct a as [n|n|B pr| |b c].
  - apply (entry_shift _ _ _ _ _ _ _ _ L) in E as [E _]. contradiction.
  - eauto.
  - apply (entry_reduce _ _ _ _ _ _ _ _ L) in E as [_ E]. apply Hl in E. contradiction.
  - apply (entry_acc _ _ _ _ _ _ _ _ L) in E as (pr & E). apply Hl in E. contradiction.
  - exfalso. exact (goto_clean _ _ _ _ _ _ _ _ L Hl _ _ _ _ HA E).
Qed.

Lemma table_columns k t : makes k dbg g t -> forall q row x a, nth_error (t_actions t) q = Some row -> bm_get x row = Some a ->
  (term rules x -> forall n, ~ inside (Goto n) a) /\ (term rules eof -> dbg = true \/ only_terminals t -> nonterm rules x -> exists n, a = Goto n).
Proof. intros Hm q row x a H1 H2. split; intros; [eapply terminal_column|eapply nonterminal_column]; eauto. Qed.
End Columns.
