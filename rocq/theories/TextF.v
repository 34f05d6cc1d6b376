(** Printed states, runs and action tables can be read back (C103-C105). *)
From Coq Require Import List Bool Arith Lia Ascii String.
From Verif Require Import BTree Model Show Strings Trace Base Spec SpecP GrammarP FirstFollow Closure LR Sound Interface Wrap Final Total TraceSpec TraceRow ShowP TextSpec Text TextP.
Import ListNotations.
Local Open Scope string_scope.
Local Open Scope list_scope.
Local Open Scope nat_scope.
Local Notation "a ^^ b" := (String.append a b) (at level 60, right associativity).
Local Notation length := List.length.

Section F.
Context {T : Type} {OT : Ord T}.
Variable show : T -> string.
Hypothesis leg : legible show.

(** ** states *)
Definition key (p : position T) : T * list T * nat * bset T := (p_rule p, fst (p_seq p), p_point p, p_look p).
Definition key_text (x : T * list T * nat * bset T) : string := let '(A, rhs, i, l) := x in pos_text show (mkPos A (rhs, 0) i l).
Lemma key_is p : key_text (key p) = pos_text show p.
Proof. destruct p as [A [rhs n] i l]. reflexivity. Qed.
Lemma key_item : item_read key_text "}".
Proof.
  split.
  - intros [[[A rhs] i] l] [[[B rhs'] i'] l'] s t a b _ _ E. cbn [key_text] in E. apply (pos_read show leg) in E as (E1 & E2 & E3 & E4 & E5). cbn in *. subst. auto.
  - intros [[[A rhs] i] l]. cbn [key_text]. unfold pos_text. cbn [p_rule]. pose proof (show_first show leg A) as H. destruct (show A); [easy|]. cbn. intros ->. apply H. simpl. tauto.
Qed.
Lemma state_keys s s' : state_text show s = state_text show s' -> map key s = map key s'.
Proof.
  unfold state_text, listing. rewrite <- !(map_ext _ _ key_is). rewrite <- !(map_map key key_text). cbn [append]. intros E. strip E.
  apply (items_read key_text "}") in E as [E _]; auto using key_item. discriminate.
Qed.

Section G.
Variables (dbg : bool) (start eof : T) (rules : rulemap T) (g : grammar T).
Hypothesis W : wf_rules rules.
Hypothesis Hg : grammar_new dbg start rules eof = Val g.
Hypothesis tw : no_twins rules.

Lemma makes_prods k t q row pos : makes k dbg g t -> nth_error (t_states t) q = Some row -> In pos row -> prod_at rules (p_rule pos) (snd (p_seq pos)) (fst (p_seq pos)).
Proof.
  intros Hm Hq Hp. destruct (Wp0 _ _ _ _ _ W Hg) as (p0 & Hp0 & _). destruct (makes_made _ _ _ _ _ W Hg _ _ _ Hm Hp0) as (sfk & lookf & X).
  pose proof (m_lr0 _ _ _ _ _ _ _ _ _ _ X) as L. rewrite <- (Wr _ _ _ _ _ Hg). destruct pos as [A pr i l].
  destruct (l_valid _ _ _ _ _ _ _ _ L q A pr i) as [H _]; auto. exists row, l. auto.
Qed.
Lemma pos_same pos pos' : prod_at rules (p_rule pos) (snd (p_seq pos)) (fst (p_seq pos)) -> prod_at rules (p_rule pos') (snd (p_seq pos')) (fst (p_seq pos')) ->
  key pos = key pos' -> pos = pos'.
Proof.
  destruct pos as [A [rhs n] i l], pos' as [A' [rhs' n'] i' l']. unfold key. cbn. intros H H' [= -> -> -> ->]. now rewrite (tw _ _ _ _ H H').
Qed.
Lemma keys_same s : forall s', (forall pos, In pos s \/ In pos s' -> prod_at rules (p_rule pos) (snd (p_seq pos)) (fst (p_seq pos))) -> map key s = map key s' -> s = s'.
Proof.
  induction s as [|p s IH]; intros [|p' s'] H E; try discriminate; auto. cbn [map] in E. assert (key p = key p' /\ map key s = map key s') as [E1 E2] by (split; congruence).
  f_equal; [|apply IH; auto]. 2:{ intros pos [Hp|Hp]; apply H; simpl; auto. }
  apply pos_same; auto; apply H; simpl; auto.
Qed.
Lemma states_read k k' t t' q q' row row' : makes k dbg g t -> makes k' dbg g t' -> nth_error (t_states t) q = Some row -> nth_error (t_states t') q' = Some row' ->
  state_text show row = state_text show row' -> row = row'.
Proof. intros H H' Hq Hq' E. apply state_keys in E. apply keys_same in E; auto. intros pos [Hp|Hp]; eauto using makes_prods. Qed.
Lemma poss_read k k' t t' q q' row row' pos pos' : makes k dbg g t -> makes k' dbg g t' -> nth_error (t_states t) q = Some row -> nth_error (t_states t') q' = Some row' ->
  In pos row -> In pos' row' -> pos_text show pos = pos_text show pos' -> pos = pos'.
Proof.
  intros H H' Hq Hq' Hp Hp' E. apply pos_same; eauto using makes_prods. apply (f_equal (fun w => w ^^ "")) in E. apply (pos_read show leg) in E as (E1 & E2 & E3 & E4 & _).
  unfold key. congruence.
Qed.
End G.

(** ** runs *)
Lemma in_turn_last st : forall p tl, in_turn (st ++ inl p :: tl) -> forall l, in_turn (T:=T) (inl p :: l) -> in_turn (st ++ inl p :: l).
Proof.
  induction st as [st IH] using (well_founded_induction (Wf_nat.well_founded_ltof _ (@length (nat + T)))). unfold Wf_nat.ltof in IH.
  intros p tl H l Hl. destruct st as [|a [|b st]]; cbn [app] in *; auto.
  - inversion H.
  - inversion H; subst. constructor. apply (IH st) with (tl := tl); simpl; auto.
Qed.
Lemma in_turn_end (l : list (nat + T)) : forall x n, in_turn l -> in_turn (l ++ [inr x; inl n]).
Proof. intros x n. induction 1; cbn [app]; repeat constructor; auto. Qed.
Lemma next_turn rules t r r' : in_turn (r_stack r) -> next_row rules t r r' -> in_turn (r_stack r').
Proof.
  intros H [n x w _ _ _ -> _|A rhs i st p tl n _ _ E _ _ _ -> _].
  - now apply in_turn_end.
  - rewrite E in H. eapply in_turn_last; eauto. repeat constructor.
Qed.
Lemma linked_turn rules t l : forall r, in_turn (r_stack r) -> linked (next_row rules t) r l -> Forall (fun r => in_turn (r_stack r)) (r :: l).
Proof.
  induction l as [|r' l IH]; intros r H HL; constructor; auto. destruct HL as [H1 H2]. apply IH; auto. eapply next_turn; eauto.
Qed.
Definition entry (e : nat + T) : string := match e with inl q => decimal q | inr x => show x end.
Lemma stack_read l : in_turn l -> forall m, in_turn m -> stack_text show l = stack_text show m -> l = m.
Proof.
  unfold stack_text. change (fun e : nat + T => match e with inl q => decimal q | inr x => show x end) with entry.
  assert (R : forall q l, in_turn l -> exists a r, map entry (inr q :: l) = entry (inr q) :: a :: r) by (intros q l0 []; cbn; eauto).
  intros H. induction H as [q|q x l H IH]; intros m Hm E.
  - destruct Hm as [q'|q' x' m Hm]; cbn [map] in E; rewrite ?concat_cons in E; cbn in E.
    + apply decimal_inj in E. now subst.
    + exfalso. assert (decimal q ^^ "" = decimal q' ^^ String " " (String.concat " " (entry (inr x') :: map entry m))) as E' by now rewrite app_nil_s.
      apply decimal_read in E' as [_ E']; cbn; auto. discriminate.
  - destruct Hm as [q'|q' x' m Hm]; cbn [map] in E; rewrite ?concat_cons in E.
    + exfalso. assert (decimal q ^^ String " " (String.concat " " (entry (inr x) :: map entry l)) = decimal q' ^^ "") as E' by now rewrite app_nil_s.
      apply decimal_read in E' as [_ E']; cbn; auto. discriminate.
    + cbn [entry append] in E. apply decimal_read in E as [-> E]; try reflexivity. strip E.
      assert (exists a r, map entry l = a :: r) as (a & r & Ea) by (destruct H; cbn; eauto).
      assert (exists a r, map entry m = a :: r) as (b & u & Eb) by (destruct Hm; cbn; eauto).
      rewrite Ea, Eb, !concat_cons in E. cbn [append] in E. apply (show_read show leg) in E as [-> E]; [|cbn; auto|cbn; auto]. strip E.
      rewrite <- Ea, <- Eb in E. f_equal. f_equal. auto.
Qed.
Lemma show_inj x y : show x = show y -> x = y.
Proof. intros E. apply (proj1 leg) with (s := "") (t := ""); cbn; auto. now rewrite E. Qed.
Lemma proc_read r r' : in_turn (r_stack r) -> in_turn (r_stack r') -> proc_text show r = proc_text show r' -> r = r'.
Proof.
  destruct r as [n st b [q x] a], r' as [n' st' b' [q' x'] a']. cbn [r_stack]. intros H H' E. unfold proc_text in E. cbn [r_step r_stack r_buffer r_address r_action fst snd] in E.
  remember (stack_text show st) as u eqn:Eu. remember (stack_text show st') as u' eqn:Eu'. remember (vec_text show b) as v eqn:Ev. remember (vec_text show b') as v' eqn:Ev'.
  remember (decimal n) as d eqn:Ed. remember (decimal n') as d' eqn:Ed'. remember (decimal q ^^ ":" ^^ show x) as c eqn:Ec. remember (decimal q' ^^ ":" ^^ show x') as c' eqn:Ec'.
  injection E as -> -> -> -> E. subst. f_equal.
  - now apply decimal_inj.
  - now apply stack_read.
  - apply (f_equal (fun w => w ^^ "")) in Ev'. now apply (vec_read show leg) in Ev' as [-> _].
  - cbn [append] in Ec'. apply decimal_read in Ec' as [-> Ec]; try reflexivity. strip Ec. now apply show_inj in Ec as ->.
  - destruct a as [a|], a' as [a'|]; auto.
    + f_equal. now apply (action_inj show leg) in E.
    + exfalso. destruct a; discriminate.
    + exfalso. destruct a'; discriminate.
Qed.
Lemma rows_read rows : forall rows' o o', Forall (fun r => in_turn (r_stack r)) rows -> Forall (fun r => in_turn (r_stack r)) rows' ->
  run_text show rows o = run_text show rows' o' -> rows = rows' /\ o = o'.
Proof.
  unfold run_text. induction rows as [|r rows IH]; intros [|r' rows'] o o' H H' E; cbn [map app] in E.
  - split; auto. unfold outcome_text in E. destruct o as [|e], o' as [|e']; auto; cbn [map app] in E.
    + exfalso. apply (error_not_ok show e'). congruence.
    + exfalso. apply (error_not_ok show e). congruence.
    + assert (error_text show e = error_text show e') as E' by congruence. clear E. rename E' into E. now apply (error_inj show leg) in E as ->.
  - exfalso. unfold outcome_text, proc_text in E. match type of E with ?a :: _ = ?b :: _ => assert (length a = length b) as E' by congruence end. discriminate.
  - exfalso. unfold outcome_text, proc_text in E. match type of E with ?a :: _ = ?b :: _ => assert (length a = length b) as E' by congruence end. discriminate.
  - assert (proc_text show r = proc_text show r' /\ map (proc_text show) rows ++ [outcome_text show o] = map (proc_text show) rows' ++ [outcome_text show o']) as [E1 E2] by (split; congruence).
    inversion H; inversion H'; subst. apply proc_read in E1 as ->; auto. apply IH in E2 as [-> ->]; auto.
Qed.

(** ** the actions table *)
Lemma cell_inj a b : action_cell show a = action_cell show b -> a = b.
Proof.
  destruct a as [a|], b as [b|]; cbn [action_cell]; intros E; auto.
  - f_equal. now apply (action_inj show leg).
  - exfalso. destruct a; discriminate.
  - exfalso. destruct b; discriminate.
Qed.
Lemma cells_inj l : forall m, map (action_cell show) l = map (action_cell show) m -> l = m.
Proof.
  induction l as [|a l IH]; intros [|b m] E; try discriminate; auto. cbn [map] in E.
  assert (action_cell show a = action_cell show b /\ map (action_cell show) l = map (action_cell show) m) as [E1 E2] by (split; congruence).
  apply cell_inj in E1 as ->. f_equal. auto.
Qed.
Lemma decimal_cell n a : decimal n <> action_cell show a.
Proof.
  pose proof (decimal_digits n) as H. pose proof (decimal_nonempty n) as H0. intros E. rewrite E in *.
  destruct a as [a|]; [|now apply H0]. destruct a; discriminate H.
Qed.
Lemma row_read l : forall m i j l' m', map (action_cell show) l ++ [decimal i] ++ map (action_cell show) l' = map (action_cell show) m ++ [decimal j] ++ map (action_cell show) m' ->
  l = m /\ i = j /\ l' = m'.
Proof.
  induction l as [|a l IH]; intros [|b m] i j l' m' E; cbn [map app] in E.
  - assert (decimal i = decimal j /\ map (action_cell show) l' = map (action_cell show) m') as [E1 E2] by (split; congruence). apply decimal_inj in E1 as ->. apply cells_inj in E2 as ->. auto.
  - exfalso. apply (decimal_cell i b). congruence.
  - exfalso. apply (decimal_cell j a). congruence.
  - assert (action_cell show a = action_cell show b /\ map (action_cell show) l ++ [decimal i] ++ map (action_cell show) l' = map (action_cell show) m ++ [decimal j] ++ map (action_cell show) m') as [E1 E2] by (cbn [app]; split; congruence).
    apply cell_inj in E1 as ->. apply IH in E2 as (-> & -> & ->). auto.
Qed.
Lemma shows_inj l : forall m, map show l = map show m -> l = m.
Proof.
  induction l as [|a l IH]; intros [|b m] E; try discriminate; auto. cbn [map] in E. assert (show a = show b /\ map show l = map show m) as [E1 E2] by (split; congruence).
  apply show_inj in E1 as ->. f_equal. auto.
Qed.

Lemma legs : legible show.
Proof. exact leg. Qed.
End F.

(** ** final statements *)
Section Fin.
Lemma nth_error_ext {A} (l : list A) : forall m, (forall i, nth_error l i = nth_error m i) -> l = m.
Proof.
  induction l as [|x l IH]; intros [|y m] H; auto; try (specialize (H 0); discriminate). f_equal; [specialize (H 0); cbn in H; congruence|]. apply IH. intros i. exact (H (S i)).
Qed.
Lemma app_inv_len {A} (a : list A) : forall b c d, length a = length b -> a ++ c = b ++ d -> a = b /\ c = d.
Proof.
  induction a as [|x a IH]; intros [|y b] c d L E; try discriminate; auto. injection L as L. injection E as -> E. apply IH in E as [-> ->]; auto.
Qed.
Context {T : Type} {OT : Ord T}.

Lemma actions_shape dbg (start eof : T) rules g : wf_rules rules -> grammar_new dbg start rules eof = Val g -> forall k t, makes k dbg g t -> forall show,
  exists ts nts, nts <> [] /\ (forall x, In x ts -> term rules x) /\ (forall x, In x nts -> nonterm rules x) /\ (forall x, In x (ts ++ nts) <-> In x (g_symbols g)) /\
  fst (actions_text show t) = map show ts ++ map show nts /\ length (snd (actions_text show t)) = length (t_actions t) /\
  forall q row, nth_error (t_actions t) q = Some row ->
    nth_error (snd (actions_text show t)) q = Some (map (fun x => action_cell show (bm_get x row)) ts ++ decimal q :: map (fun x => action_cell show (bm_get x row)) nts) /\
    forall x a, bm_get x row = Some a -> In x (ts ++ nts).
Proof.
  intros W Hg k t Hm show. destruct (actions_rows _ _ _ _ _ W Hg _ _ Hm) as (ts & nts & Ec & S1 & S2 & H1 & H2 & Hl & Hr). exists ts, nts.
  destruct (table_exact _ _ _ _ _ W Hg _ _ Hm) as (_ & _ & L & _).
  assert (In start (g_symbols g) /\ nonterm rules start) as [Hs Hn].
  { destruct (Wp0 _ _ _ _ _ W Hg) as (p0 & _ & Hp & _). apply prod_nonterm in Hp. split; [|exact Hp]. eapply grammar_new_symbols; eauto. }
  split; [intros ->; now apply (H2 start)|]. split; [intros x Hx; now apply H1|]. split; [intros x Hx; now apply H2|]. split.
  { intros x. rewrite in_app_iff, H1, H2. split; [tauto|]. intros Hx. unfold term. destruct (bm_get x rules) as [r|] eqn:E; [right; split; auto; now exists r|].
    left. split; auto. intros (r & Hr'). congruence. }
  unfold actions_text. rewrite Ec. cbn [fst snd]. split; [apply map_app|]. split; [rewrite map_length, Hl; auto|].
  intros q row Hq. destruct (Hr q row Hq) as [Hq1 Hq2]. split; auto. rewrite nth_error_map, Hq1. cbn [option_map app]. now rewrite !map_map.
Qed.

Lemma bm_cells (ts : list T) (row row' : bmap T (action T)) : map (fun x => bm_get x row) ts = map (fun x => bm_get x row') ts -> forall x, In x ts -> bm_get x row = bm_get x row'.
Proof. intros E x Hx. eapply map_ext_in_iff in E; eauto. Qed.

Lemma actions_back dbg (start eof : T) rules g dbg' start' eof' rules' g' show : legible show ->
  wf_rules rules -> grammar_new dbg start rules eof = Val g -> wf_rules rules' -> grammar_new dbg' start' rules' eof' = Val g' ->
  forall k t k' t', makes k dbg g t -> makes k' dbg' g' t' -> actions_text show t = actions_text show t' -> t_actions t = t_actions t'.
Proof.
  intros leg W Hg W' Hg' k t k' t' Hm Hm' E.
  destruct (actions_rows _ _ _ _ _ W Hg _ _ Hm) as (ts & nts & Ec & S1 & S2 & H1 & H2 & Hl & Hr).
  destruct (actions_rows _ _ _ _ _ W' Hg' _ _ Hm') as (ts' & nts' & Ec' & S1' & S2' & H1' & H2' & Hl' & Hr').
  destruct (table_exact _ _ _ _ _ W Hg _ _ Hm) as (go & _ & L & X). destruct (table_exact _ _ _ _ _ W' Hg' _ _ Hm') as (go' & _ & L' & X').
  unfold actions_text in E. rewrite Ec, Ec' in E.
  assert (E1 := f_equal fst E). assert (E2 := f_equal snd E). cbn [fst snd] in E1, E2. apply (shows_inj show leg) in E1.
  set (cells := fun '(l, i, l') => map (action_cell show) l ++ [decimal i] ++ map (action_cell show) l') in *.
  assert (Len : length (t_actions t) = length (t_actions t')).
  { apply (f_equal (@length _)) in E2. rewrite !map_length in E2. congruence. }
  apply nth_error_ext. intros q. destruct (nth_error (t_actions t) q) as [row|] eqn:Eq.
  2:{ apply nth_error_None in Eq. symmetry. apply nth_error_None. lia. }
  destruct (nth_error (t_actions t') q) as [row'|] eqn:Eq'.
  2:{ apply nth_error_None in Eq'. assert (nth_error (t_actions t) q <> None) as N by congruence. apply nth_error_Some in N. lia. }
  f_equal. destruct (Hr q row Eq) as [R1 R2]. destruct (Hr' q row' Eq') as [R1' R2'].
  apply (f_equal (fun l => nth_error l q)) in E2. rewrite !nth_error_map, R1, R1' in E2. cbn [option_map] in E2. injection E2 as E2.
  apply (row_read show leg) in E2 as (E2 & _ & E3).
  assert (length ts = length ts') as Lt by (apply (f_equal (@length _)) in E2; now rewrite !map_length in E2).
  assert (ts = ts' /\ nts = nts') as [<- <-].
  { apply (app_inv_len _ _ _ _ Lt E1). }
  apply msorted_ext; [apply (X q row Eq)|apply (X' q row' Eq')|]. intros x.
  assert (In x (ts ++ nts) -> bm_get x row = bm_get x row') as Hin.
  { intros Hx. apply in_app_iff in Hx as [Hx|Hx]; [exact (bm_cells _ _ _ E2 x Hx)|exact (bm_cells _ _ _ E3 x Hx)]. }
  destruct (bm_get x row) as [a|] eqn:Ea; [now apply Hin, (R2 x a)|]. destruct (bm_get x row') as [a|] eqn:Ea'; auto. apply Hin. eapply R2'; eauto.
Qed.

Lemma run_back dbg (start eof : T) rules g dbg' start' eof' rules' g' show : legible show ->
  wf_rules rules -> grammar_new dbg start rules eof = Val g -> term rules eof -> wf_rules rules' -> grammar_new dbg' start' rules' eof' = Val g' -> term rules' eof' ->
  forall k t k' t', makes k dbg g t -> makes k' dbg' g' t' ->
  forall M (maps maps' : reductmap T M) fuel fuel' input input' d d' rows rows' e e' o o',
  Forall (term rules) (map tk_ty input) -> Forall (term rules') (map tk_ty input') ->
  parser_dfa t input maps = Val d -> parser_dfa t' input' maps' = Val d' ->
  print_proc_dfa fuel d = Val (rows, e, o) -> print_proc_dfa fuel' d' = Val (rows', e', o') ->
  run_text show rows o = run_text show rows' o' -> rows = rows' /\ o = o' /\ map tk_ty input = map tk_ty input' /\ eof = eof'.
Proof.
  intros leg W Hg He W' Hg' He' k t k' t' Hm Hm' M maps maps' fuel fuel' input input' d d' rows rows' e e' o o' Ht Ht' Ed Ed' Ep Ep' E.
  destruct (proc_table _ _ _ _ _ W Hg _ _ _ Hm He _ _ _ _ _ _ Ht Ed Ep) as (_ & _ & _ & r & rest & -> & S1 & B1 & L1 & _).
  destruct (proc_table _ _ _ _ _ W' Hg' _ _ _ Hm' He' _ _ _ _ _ _ Ht' Ed' Ep') as (_ & _ & _ & r' & rest' & -> & S2 & B2 & L2 & _).
  apply (rows_read show leg) in E as [E ->].
  - injection E as <- <-. split; auto. split; auto. rewrite B1 in B2. now apply app_inj_tail in B2.
  - eapply linked_turn; eauto. rewrite S1. constructor.
  - eapply linked_turn; eauto. rewrite S2. constructor.
Qed.
End Fin.

Section Head.
Context {T : Type} {OT : Ord T}.
Variables (dbg : bool) (start eof : T) (rules : rulemap T) (g : grammar T).
Hypothesis W : wf_rules rules.
Hypothesis Hg : grammar_new dbg start rules eof = Val g.
Variables (k : method) (t : tabler T).
Hypothesis Hm : makes k dbg g t.
Variable show : T -> string.

Lemma nth_app_r {A} (a b : list A) i : nth_error (a ++ b) (length a + i) = nth_error b i.
Proof. rewrite nth_error_app2 by lia. f_equal. lia. Qed.

Lemma heading_shifted : exists A j, nonterm rules A /\ nth_error (fst (actions_text show t)) j = Some (show A) /\
  forall q row, nth_error (t_actions t) q = Some row -> exists cells, nth_error (snd (actions_text show t)) q = Some cells /\
    length cells = S (length (fst (actions_text show t))) /\ nth_error cells j = Some (decimal q) /\ forall a, action_cell show a <> decimal q.
Proof.
  destruct (actions_shape _ _ _ _ _ W Hg _ _ Hm show) as (ts & nts & Ne & H1 & H2 & H3 & E & L & R). destruct nts as [|A nts]; [easy|].
  exists A, (length ts). split; [apply H2; simpl; auto|]. rewrite E. split.
  - replace (length ts) with (length (map show ts) + 0) by (rewrite map_length; lia). now rewrite nth_app_r.
  - intros q row Hq. destruct (R q row Hq) as [R1 _]. eexists. split; [exact R1|]. split; [rewrite !app_length; cbn [length map]; rewrite !map_length; lia|]. split.
    + match goal with |- nth_error (map ?f ts ++ _) _ = _ => replace (length ts) with (length (map f ts) + 0) by (rewrite map_length; lia) end. now rewrite nth_app_r.
    + intros a Ha. symmetry in Ha. revert Ha. apply decimal_cell.
Qed.

Lemma heading_right x : In x (g_symbols g) -> exists j, nth_error (fst (actions_text show t)) j = Some (show x) /\
  forall q row, nth_error (t_actions t) q = Some row -> exists cells, nth_error (snd (actions_text show t)) q = Some cells /\
    (term rules x -> nth_error cells j = Some (action_cell show (bm_get x row))) /\
    (nonterm rules x -> nth_error cells (S j) = Some (action_cell show (bm_get x row))).
Proof.
  intros Hx. destruct (actions_shape _ _ _ _ _ W Hg _ _ Hm show) as (ts & nts & Ne & H1 & H2 & H3 & E & L & R).
  pose proof (proj2 (H3 x) Hx) as Hy. apply in_app_iff in Hy as [Hy|Hy]; destruct (In_nth_error _ _ Hy) as (j & Hj); rewrite E.
  - exists j. assert (j < length ts) as Lj by (apply nth_error_Some; congruence). split.
    + rewrite nth_error_app1 by (rewrite map_length; lia). now rewrite nth_error_map, Hj.
    + intros q row Hq. destruct (R q row Hq) as [R1 _]. eexists. split; [exact R1|]. split.
      * intros _. rewrite nth_error_app1 by (rewrite map_length; lia). now rewrite nth_error_map, Hj.
      * intros Hn. now apply H1 in Hy.
  - exists (length ts + j). split.
    + replace (length ts + j) with (length (map show ts) + j) by (rewrite map_length; lia). now rewrite nth_app_r, nth_error_map, Hj.
    + intros q row Hq. destruct (R q row Hq) as [R1 _]. eexists. split; [exact R1|]. split.
      * intros Ht. now apply H2 in Hy.
      * intros _. match goal with |- nth_error (map ?f ts ++ _) _ = _ => replace (S (length ts + j)) with (length (map f ts) + S j) by (rewrite map_length; lia) end. rewrite nth_app_r. cbn [nth_error]. now rewrite nth_error_map, Hj.
Qed.
End Head.

Lemma messages {T : Type} (show : T -> string) : legible show ->
  (forall e e', error_text show e = error_text show e' -> e = e') /\ (forall o o', outcome_text show o = outcome_text show o' -> o = o').
Proof.
  intros leg. split; [exact (error_inj show leg)|]. intros [|e] [|e'] E; auto; unfold outcome_text in E.
  - exfalso. apply (error_not_ok show e'). congruence.
  - exfalso. apply (error_not_ok show e). congruence.
  - f_equal. apply (error_inj show leg). congruence.
Qed.
