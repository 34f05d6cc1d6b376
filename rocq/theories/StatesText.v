(** What the printed states table tells (C129) *)
From Coq Require Import List Bool Arith Lia String.
From Verif Require Import BTree Model Show Base Spec SpecP GrammarP Interface Wrap Final StatesSpec StatesP FirstFollow Closure Canon ShowP Cores LR Text TextSpec TextP TextF.
Import ListNotations.
Local Open Scope string_scope.
Local Open Scope list_scope.
Local Notation length := List.length.
Local Notation "a ^^ b" := (String.append a b) (at level 60, right associativity).

Section StatesText.
Context {T : Type} {OT : Ord T}.
Variables (dbg : bool) (start eof : T) (rules : rulemap T) (g : grammar T).
Hypothesis W : wf_rules rules.
Hypothesis Hg : grammar_new dbg start rules eof = Val g.
Variables show disp : T -> string.
Hypothesis Hd : forall x y, disp x = disp y -> x = y.

Definition goto_text (q : nat) (x : T) : string := "goto(" ^^ decimal q ^^ ", " ^^ disp x ^^ ")".
Lemma append_end a b c : a ^^ String c "" = b ^^ String c "" -> a = b.
Proof.
  revert b. induction a as [|d a IH]; intros [|e b] E; auto; cbn in E.
  - injection E as _ E. destruct b; discriminate.
  - injection E as _ E. destruct a; discriminate.
  - injection E as -> E. f_equal. auto.
Qed.
Lemma goto_read q x q' x' : goto_text q x = goto_text q' x' -> q = q' /\ x = x'.
Proof.
  unfold goto_text. intros E. apply pre in E. apply decimal_read in E as (-> & E); [|reflexivity..]. split; auto. apply pre in E. apply append_end in E. auto.
Qed.

Lemma moves_fun k t q x n n' : makes k dbg g t -> moves t q x n -> moves t q x n' -> n = n'.
Proof.
  intros Hm H H'. destruct (table_exact _ _ _ _ _ W Hg _ _ Hm) as (go & Ht & _ & HT).
  rewrite (moves_transition dbg g k t go q x n Hm Ht (fun q row Hq => proj1 (proj2 (HT q row Hq))) H).
  now rewrite (moves_transition dbg g k t go q x n' Hm Ht (fun q row Hq => proj1 (proj2 (HT q row Hq))) H').
Qed.
Lemma moves_dot k t q x n : makes k dbg g t -> moves t q x n -> exists row pos, nth_error (t_states t) q = Some row /\ In pos row /\ at_dot pos = Some x.
Proof.
  intros Hm (row & a & Hq & Hx & Hi). destruct (table_exact _ _ _ _ _ W Hg _ _ Hm) as (go & _ & _ & HT). destruct (HT _ _ Hq) as (_ & D & _).
  destruct Hi as [Hi|Hi]; assert (D' := proj1 (D x _) (ex_intro _ a (conj Hx Hi))); inversion D'; subst; eauto.
Qed.

Theorem states_text_rows k t o : builds k dbg g t o -> exists s0 rows,
  nth_error (t_states t) 0 = Some s0 /\
  states_text show disp o t = Val (["last state: " ^^ decimal (length (t_states t) - 1); pos_text show (g_basis g); "0"; state_text show s0] :: rows) /\
  NoDup (map (hd "") rows) /\
  (forall q x n, (exists kern c, In [goto_text q x; kern; decimal n; c] rows) <-> moves t q x n) /\
  (forall r, In r rows -> exists q x n row row' fk, r = [goto_text q x; state_text show fk; decimal n; state_text show row'] /\
     nth_error (t_states t) q = Some row /\ nth_error (t_states t) n = Some row' /\
     forall A pr p, (exists l, In (mkPos A pr p l) fk) <-> exists p' l, p = S p' /\ In (mkPos A pr p' l) row /\ nth_error (fst pr) p' = Some x) /\
  (forall n row, n <> 0 -> nth_error (t_states t) n = Some row -> exists a kern, In [a; kern; decimal n; state_text show row] rows).
Proof.
  intros HB. pose proof (builds_makes _ _ _ _ _ HB) as Hm. destruct (states_rows _ _ _ _ _ W Hg _ _ _ HB) as (rows & E & N & H1 & H2).
  pose proof (makes_grammar _ _ _ _ _ W Hg _ _ Hm) as Eg.
  destruct (makes_states _ _ _ _ _ W Hg _ _ Hm) as (_ & HR & _).
  assert (exists s0, nth_error (t_states t) 0 = Some s0) as (s0 & Hs0).
  { destruct (Wp0 _ _ _ _ _ W Hg) as (p0 & Hp0 & _). destruct (makes_made _ _ _ _ _ W Hg _ _ _ Hm Hp0) as (sfk & lookf & X).
    pose proof (m_lr0 _ _ _ _ _ _ _ _ _ _ X) as L. destruct (l_start _ _ _ _ _ _ _ _ L) as (row & l & H & _). eauto. }
  set (f := fun r : nat * T * state T * nat * state T => let '(i, sym, kernel, id, c) := r in ["goto(" ^^ decimal i ^^ ", " ^^ disp sym ^^ ")"; state_text show kernel; decimal id; state_text show c]).
  exists s0, (map f rows). split; auto. split.
  { unfold states_text. rewrite Hs0. cbn [expect bind]. rewrite E. cbn [bind]. now rewrite Eg. }
  assert (HM : forall q x n, (exists fk c, In (q, x, fk, n, c) rows) <-> moves t q x n).
  { intros q x n. split; [intros (fk & c & H); destruct (H2 _ _ _ _ _ H) as (row & _ & _ & _ & _ & H3 & _); auto|].
    intros H. destruct (proj2 (H1 q x)) as (fk & n' & c & H3); [eapply moves_dot; eauto|]. destruct (H2 _ _ _ _ _ H3) as (row & _ & _ & _ & _ & H4 & _).
    rewrite (moves_fun _ _ _ _ _ _ Hm H H4). eauto. }
  split; [|split; [|split]].
  - rewrite map_map. assert (map (fun r => hd "" (f r)) rows = map (fun '(q, x) => goto_text q x) (map row_key rows)) as Em.
    { rewrite map_map. apply map_ext. now intros [[[[q x] fk] n] c]. }
    rewrite Em. apply FinFun.Injective_map_NoDup; auto. intros [q x] [q' x'] Ex. apply goto_read in Ex as (-> & ->). auto.
  - intros q x n. rewrite <- HM. split.
    + intros (kern & c & H). apply in_map_iff in H as ([[[[q' x'] fk] n'] c'] & Er & Hr). assert (goto_text q' x' = goto_text q x /\ decimal n' = decimal n) as (E1 & E3) by (split; [exact (f_equal (hd "") Er)|exact (f_equal (fun l => nth 2 l "") Er)]).
      apply goto_read in E1 as (-> & ->). apply decimal_inj in E3 as ->. eauto.
    + intros (fk & c & H). apply (in_map f) in H. cbn in H. eauto.
  - intros r Hr. apply in_map_iff in Hr as ([[[[q x] fk] n] c] & <- & Hr). destruct (H2 _ _ _ _ _ Hr) as (row & Hq & _ & _ & Hn & Hv & Hc & _).
    exists q, x, n, row, c, fk. split; [reflexivity|]. split; auto. split; auto. intros A pr p. split.
    + intros (l & Hl). destruct (core_in _ _ _ Hc Hl) as ([A' pr' p' l'] & Hp' & Ep). unfold no_look in Ep. injection Ep as -> -> ->.
      apply sym_filter_in in Hp' as ([A1 pr1 p1 l1] & Hin & Ht & Ea). unfold adv in Ea. injection Ea as -> -> -> ->. exists p1, l1. split; auto. split; auto. unfold ptop, peek in Ht. cbn in Ht. now rewrite Nat.add_0_r in Ht.
    + intros (p' & l & -> & Hin & Ht). assert (In (mkPos A pr (S p') l) (sym_filter row x)) as Hf.
      { apply sym_filter_in. exists (mkPos A pr p' l). split; auto. split; [|reflexivity]. unfold ptop, peek. cbn. now rewrite Nat.add_0_r. }
      destruct (core_in _ _ _ (eq_sym Hc) Hf) as ([A' pr' p2 l'] & Hp' & Ep). unfold no_look in Ep. injection Ep as -> -> ->. eauto.
  - intros n row Nn Hn. destruct (HR n) as (qs & xs & P); [apply nth_error_Some; congruence|]. inversion P as [|q ms x ys n' P1 Mv]; subst; [now destruct Nn|].
    apply HM in Mv as (fk & c & Hr). destruct (H2 _ _ _ _ _ Hr) as (row1 & _ & _ & _ & Hc & _). assert (c = row) as -> by congruence.
    apply (in_map f) in Hr. cbn in Hr. eauto.
Qed.

Lemma list_same {A} (l m : list A) : (forall n x y, nth_error l n = Some x -> nth_error m n = Some y -> x = y) -> length l = length m -> l = m.
Proof.
  revert m. induction l as [|a l IH]; intros [|b m] H E; try discriminate; auto. f_equal; [exact (H 0 a b eq_refl eq_refl)|]. apply IH; [|now injection E].
  intros n x y H1 H2. exact (H (S n) x y H1 H2).
Qed.

Theorem states_text_back : legible show -> forall k k' t t' o o' rows, builds k dbg g t o -> builds k' dbg g t' o' ->
  states_text show disp o t = Val rows -> states_text show disp o' t' = Val rows ->
  length (t_states t) = length (t_states t') /\ (forall q x n, moves t q x n <-> moves t' q x n) /\ (no_twins rules -> t_states t = t_states t').
Proof.
  intros leg k k' t t' o o' rows HB HB' E E'. pose proof (builds_makes _ _ _ _ _ HB) as Hm. pose proof (builds_makes _ _ _ _ _ HB') as Hm'.
  destruct (states_text_rows _ _ _ HB) as (s0 & rs & H0 & Er & _ & M & R & A). destruct (states_text_rows _ _ _ HB') as (s0' & rs' & H0' & Er' & _ & M' & R' & A').
  rewrite Er in E. rewrite Er' in E'. injection E as E. injection E' as E'. rewrite <- E' in E. pose proof (f_equal (@tl _) E) as E3. cbn in E3. subst rs'. pose proof (f_equal (fun l => nth 3 (hd [] l) "") E) as E2. cbn in E2.
  pose proof (f_equal (fun l => nth 0 (hd [] l) "") E) as E1. cbv beta in E1. cbn [hd nth] in E1. apply (pre "last state: ") in E1. apply decimal_inj in E1.
  assert (length (t_states t) <> 0) by (intros Z; destruct (t_states t); discriminate). assert (length (t_states t') <> 0) by (intros Z; destruct (t_states t'); discriminate).
  assert (length (t_states t) = length (t_states t')) as El by lia. split; auto. split; [intros; now rewrite <- M, <- M'|].
  intros tw. apply list_same; auto. intros [|n] row row' Hn Hn'.
  - assert (row = s0) as -> by congruence. assert (row' = s0') as -> by congruence. exact (states_read show leg _ _ _ _ _ W Hg tw _ _ _ _ _ _ _ _ Hm Hm' H0 H0' E2).
  - destruct (A (S n) row) as (a & kern & Hr); auto. destruct (R' _ Hr) as (q & x & n' & r1 & r2 & fk & Ee & _ & Hn2 & _). assert (decimal (S n) = decimal n' /\ state_text show row = state_text show r2) as (E4 & E5) by (split; [exact (f_equal (fun l => nth 2 l "") Ee)|exact (f_equal (fun l => nth 3 l "") Ee)]). apply decimal_inj in E4 as <-.
    assert (r2 = row') as -> by congruence. exact (states_read show leg _ _ _ _ _ W Hg tw _ _ _ _ _ _ _ _ Hm Hm' Hn Hn' E5).
Qed.
End StatesText.

(** *** the printed tokens table *)
Lemma tokens_text_back {T : Type} {OT : Ord T} (show disp : T -> string) : legible show -> (forall x y, disp x = disp y -> x = y) ->
  forall t t' : tabler T, tokens_text show disp t = tokens_text show disp t' -> tokens_table t = tokens_table t'.
Proof.
  intros leg Hd t t'. unfold tokens_text. generalize (tokens_table t) (tokens_table t'). induction l as [|[[k f] w] l IH]; intros [|[[k' f'] w'] l'] E; try discriminate; auto.
  cbn [map] in E. pose proof (f_equal (@tl _) E) as E1. cbn [tl] in E1. f_equal; auto.
  assert (k = k') as -> by (apply Hd; exact (f_equal (fun l => nth 0 (hd [] l) "") E)).
  pose proof (f_equal (fun l => nth 1 (hd [] l) "") E) as E2. pose proof (f_equal (fun l => nth 2 (hd [] l) "") E) as E3. cbn [hd nth] in E2, E3.
  assert (R : forall a b : bset T, set_text show a = set_text show b -> a = b) by (intros a b Eab; apply (set_read show leg a b "" ""); now rewrite Eab).
  now rewrite (R _ _ E2), (R _ _ E3).
Qed.

(** *** the stack with its values *)
Section Debug.
Context {T M : Type}.
Variables (show : T -> string) (showM : M -> string).
Hypotheses (leg : legible show) (legM : legible showM).
Definition tok_text (tok : token T M) : string := "Token { item: " ^^ showM (tk_item tok) ^^ ", ty: " ^^ show (tk_ty tok) ^^ " }".
Lemma tok_legible : legible tok_text.
Proof.
  split.
  - intros [i x] [j y] s u _ _ E. unfold tok_text in E. cbn [tk_item tk_ty] in E. rewrite !ass in E. apply (pre "Token { item: ") in E.
    apply (show_read showM legM) in E as (-> & E); [|cbn; tauto..]. apply (pre ", ty: ") in E.
    apply (show_read show leg) in E as (-> & _); [reflexivity|cbn; tauto..].
  - intros tok. cbn. intros [H|[H|[H|[H|[H|[]]]]]]; discriminate.
Qed.
Lemma weave_turn {B} (m : list B) : forall l : list nat, length l = S (length m) -> in_turn (weave l m).
Proof. induction m as [|b m IH]; intros [|a l] E; try discriminate; cbn in *; [destruct l; [constructor|discriminate]|]. constructor. apply IH. now injection E. Qed.
Lemma weave_inj {B} (m : list B) : forall (l l' : list nat) m', length l = S (length m) -> length l' = S (length m') -> weave l m = weave l' m' -> l = l' /\ m = m'.
Proof.
  induction m as [|b m IH]; intros [|a l] [|a' l'] [|b' m'] E E' H; try discriminate; cbn in *.
  - destruct l, l'; try discriminate. injection H as ->. auto.
  - destruct l; discriminate.
  - destruct l'; [|discriminate]. discriminate.
  - injection H as -> -> H. injection E as E. injection E' as E'. destruct (IH _ _ _ E E' H) as (-> & ->). auto.
Qed.
Lemma stack_debug_read (d d' : dfa T M) : length (d_states d) = S (length (d_items d)) -> length (d_states d') = S (length (d_items d')) ->
  stack_debug show showM d = stack_debug show showM d' -> d_states d = d_states d' /\ d_items d = d_items d'.
Proof.
  intros H H' E. assert (length (rev (d_states d)) = S (length (rev (d_items d)))) as K by now rewrite !rev_length. assert (length (rev (d_states d')) = S (length (rev (d_items d')))) as K' by now rewrite !rev_length.
  apply (stack_read tok_text tok_legible _ (weave_turn _ _ K) _ (weave_turn _ _ K')) in E. apply weave_inj in E as (E1 & E2); auto.
  split; [rewrite <- (rev_involutive (d_states d)), E1|rewrite <- (rev_involutive (d_items d)), E2]; apply rev_involutive.
Qed.
End Debug.

(** in every configuration of a run *)
Lemma stack_debug_back {T : Type} {OT : Ord T} {M : Type} (show : T -> string) (showM : M -> string) : legible show -> legible showM ->
  forall dbg (start eof : T) rules g, wf_rules rules -> grammar_new dbg start rules eof = Val g -> term rules eof -> forall k t, makes k dbg g t ->
  forall maps input input' (d d' : dfa T M), Forall (term rules) (map tk_ty input) -> Forall (term rules) (map tk_ty input') -> reaches t input maps d -> reaches t input' maps d' ->
  stack_debug show showM d = stack_debug show showM d' -> d_states d = d_states d' /\ d_items d = d_items d'.
Proof.
  intros leg legM dbg start eof rules g W Hg He k t Hm maps input input' d d' Ht Ht' R R'. apply stack_debug_read; auto.
  - destruct (reaches_stack _ _ _ _ _ W Hg maps _ _ Hm He _ _ R Ht) as (P & _). apply printed_path in P as (P & _). now rewrite map_length in P.
  - destruct (reaches_stack _ _ _ _ _ W Hg maps _ _ Hm He _ _ R' Ht') as (P & _). apply printed_path in P as (P & _). now rewrite map_length in P.
Qed.

Lemma weave_end {A B} (m : list B) a b : forall l : list A, length l = S (length m) -> weave (l ++ [a]) (m ++ [b]) = weave l m ++ [inr b; inl a].
Proof.
  induction m as [|b' m IH]; intros [|a' l] E; try discriminate; cbn in *.
  - destruct l; [reflexivity|discriminate].
  - rewrite IH; auto.
Qed.
Lemma concat_end sep x y l : String.concat sep (x :: l ++ [y]) = String.concat sep (x :: l) ^^ sep ^^ y.
Proof. revert x. induction l as [|z l IH]; intros x; [reflexivity|]. cbn [app]. rewrite !concat_cons, IH, !ass. reflexivity. Qed.
Lemma stack_debug_text {T M : Type} (show : T -> string) (showM : M -> string) (d : dfa T M) q :
  (d_states d = [q] -> d_items d = [] -> stack_debug show showM d = decimal q) /\
  (forall qs it its d', d_states d = q :: qs -> d_items d = it :: its -> length qs = S (length its) -> d_states d' = qs -> d_items d' = its ->
     stack_debug show showM d = stack_debug show showM d' ^^ " Token { item: " ^^ showM (tk_item it) ^^ ", ty: " ^^ show (tk_ty it) ^^ " } " ^^ decimal q).
Proof.
  unfold stack_debug. split.
  - intros -> ->. reflexivity.
  - intros qs it its d' -> -> El -> ->. cbn [rev]. rewrite weave_end by (now rewrite !rev_length). rewrite map_app. cbn [map].
    assert (exists a w, weave (rev qs) (rev its) = a :: w) as (a & w & ->).
    { assert (length (rev qs) = S (length (rev its))) as E by (now rewrite !rev_length). destruct (rev qs) as [|a l]; [discriminate|]. destruct (rev its); cbn; eauto. }
    cbn [map]. match goal with |- String.concat " " ((?x :: ?l) ++ [?y; ?z]) = _ => change ((x :: l) ++ [y; z]) with (x :: l ++ [y; z]); change (l ++ [y; z]) with (l ++ [y] ++ [z]) end.
    rewrite app_assoc, concat_end, concat_end, !ass. reflexivity.
Qed.

Lemma tokens_text_rows {T : Type} {OT : Ord T} dbg (start eof : T) rules g : wf_rules rules -> grammar_new dbg start rules eof = Val g ->
  forall show disp : T -> string, (forall x y, disp x = disp y -> x = y) -> forall k t, makes k dbg g t ->
  (forall A, nonterm rules A -> A <> start -> exists B i rhs, prod_at rules B i rhs /\ In A rhs /\ A <> B) ->
  map (hd "") (tokens_text show disp t) = map disp (bm_keys rules) /\
  forall r A, In r (tokens_text show disp t) -> hd "" r = disp A -> exists f w, bm_get A (t_first t) = Some f /\ bm_get A (t_follow t) = Some w /\
    r = [disp A; set_text show f; set_text show w].
Proof.
  intros W Hg show disp Hd k t Hm Hu. destruct (tokens_rows _ _ _ _ _ W Hg _ _ Hm Hu) as (H1 & H2). split.
  - rewrite <- H2. unfold tokens_text. rewrite !map_map. apply map_ext. now intros [[A f] w].
  - intros r A Hr Ha. unfold tokens_text in Hr. apply in_map_iff in Hr as ([[A' f] w] & <- & Hr). cbn [hd] in Ha. apply Hd in Ha as ->. apply H1 in Hr as (E1 & E2). eauto.
Qed.
