(** The lexer finds the tokens of its input. *)
From Coq Require Import List Bool Arith Lia Ascii String.
From Verif Require Import BTree Model Wop WopSpec WopLex WopLexSpec.
Import ListNotations.
Local Open Scope list_scope.
Local Notation len := String.length.
Local Infix "+++" := String.append (right associativity, at level 60).

Lemma sapp_nil (s : string) : s +++ "" = s.
Proof. induction s; simpl; congruence. Qed.
Lemma sapp_assoc (a b c : string) : (a +++ b) +++ c = a +++ b +++ c.
Proof. induction a; simpl; congruence. Qed.
Lemma len_app (a b : string) : len (a +++ b) = len a + len b.
Proof. induction a; simpl; congruence. Qed.
Lemma sapp_inv (a b c d : string) : a +++ b = c +++ d -> len a = len c -> a = c /\ b = d.
Proof. revert c. induction a as [|x a IH]; intros [|y c] E L; simpl in *; try discriminate; auto. injection E as -> E. destruct (IH c E) as [-> ->]; auto. Qed.

(** ** derivatives *)
Lemma matches_none w : ~ matches RNone w.
Proof. intros H. inversion H. Qed.
Lemma nullable_ok r : nullable r = true <-> matches r "".
Proof.
  split.
  - induction r; simpl; intros H; try discriminate; try (constructor; fail).
    + apply andb_prop in H as [H1 H2]. change ""%string with (""%string +++ ""). constructor; auto.
    + apply orb_prop in H as [H|H]; [apply m_left|apply m_right]; auto.
  - intros H. remember ""%string as w eqn:E. induction H; try discriminate; simpl; auto.
    + destruct v; [|discriminate]. simpl in E. rewrite IHmatches1, IHmatches2; auto.
    + rewrite IHmatches; auto.
    + rewrite IHmatches; auto. apply orb_true_r.
Qed.
Lemma seq'_ok r s w : matches (seq' r s) w <-> matches (RSeq r s) w.
Proof.
  destruct r; simpl; try reflexivity.
  - split; intros H; [inversion H|]. inversion H as [| |? ? v u Hv Hu| | | |]; subst. inversion Hv.
  - split; intros H; [change w with (""%string +++ w); repeat constructor; auto|]. inversion H as [| |? ? v u Hv Hu| | | |]; subst. inversion Hv; subst. auto.
Qed.
Lemma alt'_ok r s w : matches (alt' r s) w <-> matches (RAlt r s) w.
Proof.
  assert (H1 : forall s, matches s w <-> matches (RAlt RNone s) w).
  { intros s0. split; [apply m_right|]. intros H. inversion H as [| | |? ? ? Hv|? ? ? Hv| |]; subst; auto. inversion Hv. }
  assert (H2 : forall s, matches s w <-> matches (RAlt s RNone) w).
  { intros s0. split; [apply m_left|]. intros H. inversion H as [| | |? ? ? Hv|? ? ? Hv| |]; subst; auto. inversion Hv. }
  destruct r; simpl; auto; destruct s; auto; reflexivity.
Qed.
Lemma deriv_ok c r : forall w, matches (deriv c r) w <-> matches r (String c w).
Proof.
  induction r as [| |p|r IHr s IHs|r IHr s IHs|r IHr]; intros w; simpl.
  - split; intros H; inversion H.
  - split; intros H; inversion H.
  - destruct (p c) eqn:E; split; intros H; inversion H; subst; try congruence; now constructor.
  - assert (Q : matches (RSeq (deriv c r) s) w <-> exists v u, w = v +++ u /\ matches r (String c v) /\ matches s u).
    { split.
      - intros H. inversion H as [| |? ? v u Hv Hu| | | |]; subst. exists v, u. rewrite <- IHr. auto.
      - intros (v & u & -> & Hv & Hu). constructor; auto. now apply IHr. }
    assert (L : matches (RSeq r s) (String c w) <-> (exists v u, w = v +++ u /\ matches r (String c v) /\ matches s u) \/ (nullable r = true /\ matches s (String c w))).
    { split.
      - intros H. inversion H as [| |? ? v u Hv Hu E1 E2| | | |]; subst. destruct v as [|c' v].
        + right. rewrite nullable_ok. simpl in *. subst u. auto.
        + simpl in *. injection E2 as -> <-. left. exists v, u. auto.
      - intros [(v & u & -> & Hv & Hu)|[Hn Hs]].
        + change (String c (v +++ u)) with (String c v +++ u). now constructor.
        + change (String c w) with (""%string +++ String c w). constructor; auto. now apply nullable_ok. }
    rewrite L. destruct (nullable r); rewrite ?alt'_ok, ?seq'_ok.
    + split.
      * intros H. inversion H; subst; [left; now apply Q, seq'_ok|right; split; auto; now apply IHs].
      * intros [H|[_ H]]; [apply m_left, seq'_ok, Q; auto|apply m_right, IHs; auto].
    + rewrite Q. split; [auto|]. intros [H|[H _]]; [auto|discriminate].
  - rewrite alt'_ok. split; intros H; inversion H; subst; try (apply m_left; now apply IHr); apply m_right; now apply IHs.
  - rewrite seq'_ok. split.
    + intros H. inversion H as [| |? ? v u Hv Hu| | | |]; subst. change (String c (v +++ u)) with (String c v +++ u). constructor; auto. now apply IHr.
    + intros H. remember (RStar r) as q eqn:Eq. remember (String c w) as t eqn:Et. induction H; try discriminate. injection Eq as ->.
      destruct v as [|c' v]; [simpl in Et; auto|]. simpl in Et. injection Et as -> <-. constructor; auto. now apply IHr.
Qed.

(** ** the longest match *)
Lemma longest_none r s : longest r s = None -> forall w t, s = w +++ t -> ~ matches r w.
Proof.
  revert r. induction s as [|c s IH]; intros r H w t E M.
  - destruct w; [|discriminate]. apply nullable_ok in M. assert (E' : longest r "" = if nullable r then Some 0 else None) by (destruct r; reflexivity). rewrite E', M in H. discriminate.
  - assert (longest r (String c s) = match longest (deriv c r) s with Some n => Some (S n) | None => if nullable r then Some 0 else None end) as L.
    { destruct r; try reflexivity. inversion M. }
    rewrite L in H. destruct (longest (deriv c r) s) eqn:Ed; [discriminate|]. destruct w as [|c' w].
    + apply nullable_ok in M. rewrite M in H. discriminate.
    + simpl in E. injection E as -> ->. apply deriv_ok in M. eapply IH; eauto.
Qed.
Lemma longest_some r s n : longest r s = Some n ->
  exists w t, s = w +++ t /\ len w = n /\ matches r w /\ forall w' t', s = w' +++ t' -> matches r w' -> len w' <= n.
Proof.
  revert r n. induction s as [|c s IH]; intros r n H.
  - assert (nullable r = true /\ n = 0) as [Hn ->]. { assert (E : longest r "" = if nullable r then Some 0 else None) by (destruct r; reflexivity). rewrite E in H. destruct (nullable r); [now injection H|discriminate]. }
    exists ""%string, ""%string. apply nullable_ok in Hn. repeat split; auto. intros w' t' E _. destruct w'; [simpl; lia|discriminate].
  - assert (longest r (String c s) = match longest (deriv c r) s with Some n => Some (S n) | None => if nullable r then Some 0 else None end) as L.
    { destruct r; try reflexivity. discriminate. }
    rewrite L in H. destruct (longest (deriv c r) s) as [m|] eqn:Ed.
    + injection H as <-. destruct (IH _ _ Ed) as (w & t & -> & <- & M & Mx). exists (String c w), t. repeat split; auto. { now apply deriv_ok. }
      intros [|c' w'] t' E M'; simpl; [lia|]. simpl in E. injection E as <- E. apply le_n_S. apply (Mx w' t' E). now apply deriv_ok.
    + destruct (nullable r) eqn:En; [|discriminate]. injection H as <-. exists ""%string, (String c s). apply nullable_ok in En. repeat split; auto.
      intros [|c' w'] t' E M'; simpl; [lia|]. exfalso. simpl in E. injection E as -> E. apply deriv_ok in M'. exact (longest_none _ _ Ed _ _ E M').
Qed.

Lemma best_none l s : best l s = None -> forall k r, In (k, r) l -> longest r s = None.
Proof.
  induction l as [|[k0 r0] l IH]; simpl; intros H k r Hi; [easy|]. destruct (longest r0 s) eqn:E; [destruct (best l s) as [[? ?]|]; [destruct (_ <=? _)|]; discriminate|].
  destruct Hi as [[= -> ->]|Hi]; eauto.
Qed.
Lemma best_some l s k n : best l s = Some (k, n) -> exists l1 r l2, l = l1 ++ (k, r) :: l2 /\ longest r s = Some n /\
  (forall k' r' m, In (k', r') l -> longest r' s = Some m -> m <= n) /\ (forall k' r' m, In (k', r') l1 -> longest r' s = Some m -> m < n).
Proof.
  revert k n. induction l as [|[k0 r0] l IH]; intros k n; simpl; [discriminate|]. destruct (longest r0 s) as [n0|] eqn:E0.
  - destruct (best l s) as [[k1 n1]|] eqn:Eb.
    + destruct (n1 <=? n0) eqn:L; intros [= <- <-].
      * apply Nat.leb_le in L. destruct (IH _ _ eq_refl) as (l1 & r & l2 & El & Er & H1 & H2). exists [], r0, l. repeat split; auto; [|intros ? ? ? []].
        intros k' r' m [[= <- <-]|Hi] Em; [rewrite E0 in Em; injection Em as <-; lia|]. specialize (H1 _ _ _ Hi Em). lia.
      * apply Nat.leb_gt in L. destruct (IH _ _ eq_refl) as (l1 & r & l2 & El & Er & H1 & H2). exists ((k0, r0) :: l1), r, l2. subst l. repeat split; auto.
        -- intros k' r' m [[= <- <-]|Hi] Em; [rewrite E0 in Em; injection Em as <-; lia|eauto].
        -- intros k' r' m [[= <- <-]|Hi] Em; [rewrite E0 in Em; injection Em as <-; lia|eauto].
    + intros [= <- <-]. exists [], r0, l. repeat split; auto; [|intros ? ? ? []].
      intros k' r' m [[= <- <-]|Hi] Em; [rewrite E0 in Em; injection Em as <-; lia|]. pose proof (best_none _ _ Eb _ _ Hi). congruence.
  - intros H. destruct (IH _ _ H) as (l1 & r & l2 & El & Er & H1 & H2). exists ((k0, r0) :: l1), r, l2. subst l. repeat split; auto.
    + intros k' r' m [[= <- <-]|Hi] Em; [congruence|eauto].
    + intros k' r' m [[= <- <-]|Hi] Em; [congruence|eauto].
Qed.

Lemma longest_exact r s n w t : longest r s = Some n -> s = w +++ t -> len w = n -> matches r w.
Proof. intros H E L. destruct (longest_some _ _ _ H) as (w' & t' & E' & L' & M & _). destruct (sapp_inv w t w' t') as [-> _]; congruence. Qed.

Section Tokens.
Variable lg : logos.
Local Notation lexicon := (lexicon lg).
Local Notation token_at := (token_at lg).
Local Notation stuck := (stuck lg).
Local Notation lexes := (lexes lg).
Lemma best_token s k n : best lexicon s = Some (k, n) -> exists w t, s = w +++ t /\ len w = n /\ token_at k w t.
Proof.
  intros H. destruct (best_some _ _ _ _ H) as (l1 & r & l2 & El & Er & H1 & H2). destruct (longest_some _ _ _ Er) as (w & t & -> & L & M & _).
  exists w, t. split; auto. split; auto. exists l1, r, l2. split; auto. split; auto. split.
  - intros k' r' w' s' Hi E M'. destruct (longest r' (w +++ t)) as [m|] eqn:Em; [|now apply (longest_none _ _ Em) in E].
    destruct (longest_some _ _ _ Em) as (_ & _ & _ & _ & _ & Mx). specialize (Mx w' s' E M'). specialize (H1 _ _ _ Hi Em). lia.
  - intros k' r' Hi M'. destruct (longest r' (w +++ t)) as [m|] eqn:Em; [|exact (longest_none _ _ Em w t eq_refl M')].
    destruct (longest_some _ _ _ Em) as (_ & _ & _ & _ & _ & Mx). specialize (Mx w t eq_refl M'). specialize (H2 _ _ _ Hi Em). lia.
Qed.
Lemma best_stuck s : best lexicon s = None -> stuck s.
Proof. intros H k r w s' Hi E. eapply longest_none; eauto. eapply best_none; eauto. Qed.

(** no entry matches the empty string *)
Lemma lexicon_nonempty k r : In (k, r) lexicon -> ~ matches r "".
Proof.
  intros Hi M. apply nullable_ok in M. assert (H : forallb (fun e => negb (nullable (snd e))) lexicon = true) by reflexivity.
  rewrite forallb_forall in H. apply H in Hi. simpl in Hi. rewrite M in Hi. discriminate.
Qed.
Lemma token_pos k w s : token_at k w s -> 0 < len w.
Proof.
  intros (l1 & r & l2 & E & M & _). destruct w; [|simpl; lia]. exfalso. apply (lexicon_nonempty k r); auto. rewrite E. apply in_elt.
Qed.

Lemma drop_app (w s : string) : drop (len w) (w +++ s) = s.
Proof. induction w; simpl; auto. Qed.
Lemma drop_split n s : n <= len s -> exists w, s = w +++ drop n s /\ len w = n.
Proof. revert s. induction n as [|n IH]; intros s L; [exists ""%string; auto|]. destruct s as [|c s]; simpl in L; [lia|]. destruct (IH s) as (w & E & Lw); [lia|]. exists (String c w). simpl. rewrite <- E, Lw. auto. Qed.

Lemma scan_lexes n : forall pos s, len s <= n -> lexes pos s (scan lg n pos s).
Proof.
  induction n as [|n IH]; intros pos s L.
  - destruct s; [constructor|simpl in L; lia].
  - destruct s as [|c s]; [constructor|]. cbn [scan]. destruct (best lexicon (String c s)) as [[k m]|] eqn:E.
    + destruct (best_token _ _ _ E) as (w & t & Es & Lw & Ht). rewrite Es in *. rewrite <- Lw, drop_app. pose proof (token_pos _ _ _ Ht). rewrite len_app in L.
      destruct k; [apply lexes_token|apply lexes_skip]; auto; apply IH; lia.
    + destruct (drop_split (Nat.min (S (extent lg (String c s))) (len (String c s))) (String c s)) as (w & Ew & Lw); [lia|].
      assert (Hw : 0 < len w) by (rewrite Lw; simpl; lia).
      set (d := drop _ _) in *. rewrite <- Lw in *. pose proof (best_stuck _ E) as St. clearbody d. rewrite Ew in *. rewrite len_app in L.
      apply lexes_error; [destruct w; [simpl in Hw; lia|discriminate]|exact St|]. apply IH. clear - L Hw. lia.
Qed.
Theorem tokenize_lexes src : lexes 0 src (tokenize lg src).
Proof. exact (scan_lexes (len src) 0 src (le_n _)). Qed.

(** ** facts about the tokens *)
Lemma substring_mid a w b : substring (len a) (len w) (a +++ w +++ b) = w.
Proof.
  induction a as [|c a IH]; simpl; [|exact IH]. induction w as [|c w IH]; simpl; [now destruct b|]. now rewrite IH.
Qed.
Lemma lexes_text src pos s ts : lexes pos s ts -> forall p, src = p +++ s -> len p = pos ->
  forall x a b, In (x, (a, b)) ts -> pos <= a /\ a < b /\ b <= len src /\ (x = SymError \/ exists r, In (Some x, r) lexicon /\ matches r (slice src (a, b))).
Proof.
  assert (S1 : forall p w s, slice (p +++ w +++ s) (len p, len p + len w) = w).
  { intros p w s0. unfold slice. simpl. rewrite Nat.add_comm, Nat.add_sub. apply substring_mid. }
  induction 1 as [pos|pos x w s ts Ht Hl IH|pos w s ts Ht Hl IH|pos w s ts Hn St Hl IH]; intros p E L y a b Hi.
  - easy.
  - pose proof (token_pos _ _ _ Ht). destruct Hi as [Hi|Hi].
    + injection Hi as <- <- <-. subst. rewrite !len_app. split; [lia|]. split; [lia|]. split; [lia|]. right.
      destruct Ht as (l1 & r & l2 & El & M & _). exists r. split; [rewrite El; apply in_elt|]. now rewrite S1.
    + destruct (IH (p +++ w)) with (x := y) (a := a) (b := b) as (H1 & H2 & H3 & H4); auto; [now rewrite sapp_assoc|rewrite len_app; lia|]. repeat split; auto; lia.
  - destruct (IH (p +++ w)) with (x := y) (a := a) (b := b) as (H1 & H2 & H3 & H4); auto; [now rewrite sapp_assoc|rewrite len_app; lia|]. repeat split; auto; lia.
  - assert (0 < len w) by (destruct w; [easy|simpl; lia]). destruct Hi as [Hi|Hi].
    + injection Hi as <- <- <-. subst. rewrite !len_app. split; [lia|]. split; [lia|]. split; [lia|]. now left.
    + destruct (IH (p +++ w)) with (x := y) (a := a) (b := b) as (H1 & H2 & H3 & H4); auto; [now rewrite sapp_assoc|rewrite len_app; lia|]. repeat split; auto; lia.
Qed.
Lemma lexes_from pos s ts : lexes pos s ts -> forall x, In x ts -> pos <= fst (snd x).
Proof.
  induction 1; intros y Hi; [easy|..]; simpl in Hi.
  - destruct Hi as [<-|Hi]; simpl; [lia|]. apply IHlexes in Hi. lia.
  - apply IHlexes in Hi. lia.
  - destruct Hi as [<-|Hi]; simpl; [lia|]. apply IHlexes in Hi. lia.
Qed.
Lemma lexes_order pos s ts : lexes pos s ts -> ForallOrdPairs (fun a b => snd (snd a) <= fst (snd b)) ts.
Proof.
  induction 1 as [pos|pos x w s ts Ht Hl IH|pos w s ts Ht Hl IH|pos w s ts Hn St Hl IH].
  - apply FOP_nil.
  - apply FOP_cons; [|exact IH]. apply Forall_forall. intros y Hy. exact (lexes_from _ _ _ Hl y Hy).
  - exact IH.
  - apply FOP_cons; [|exact IH]. apply Forall_forall. intros y Hy. exact (lexes_from _ _ _ Hl y Hy).
Qed.
Lemma lexes_laid src ts : lexes 0 src ts -> laid_out (len src) ts.
Proof.
  intros H. split; [eapply lexes_order; eauto|]. apply Forall_forall. intros [x [a b]] Hi. destruct (lexes_text src 0 src ts H "" eq_refl eq_refl x a b Hi) as (_ & H1 & H2 & _). simpl. lia.
Qed.

Lemma token_unique k w s k' w' s' : token_at k w s -> token_at k' w' s' -> w +++ s = w' +++ s' -> k = k' /\ w = w' /\ s = s'.
Proof.
  intros (l1 & r & l2 & E & M & Mx & Pr) (l1' & r' & l2' & E' & M' & Mx' & Pr') Eq.
  assert (len w = len w') as L.
  { apply Nat.le_antisymm; [eapply Mx'|eapply Mx]; eauto; [rewrite E|rewrite E']; apply in_elt. }
  destruct (sapp_inv _ _ _ _ Eq L) as [<- <-]. split; auto. rewrite E in E'. clear - E' M M' Pr Pr'.
  revert l1' E' Pr'. induction l1 as [|e l1 IH]; intros [|e' l1'] E' Pr'; simpl in E'.
  - now injection E'.
  - injection E' as <- E'. exfalso. apply (Pr' k r); [now left|auto].
  - injection E' as -> E'. exfalso. apply (Pr k' r'); [now left|auto].
  - injection E' as <- E'. apply IH with l1'; auto; intros k0 r0 Hi; [apply (Pr k0)|apply (Pr' k0)]; now right.
Qed.
Lemma token_not_stuck k w s w' s' : token_at k w s -> w +++ s = w' +++ s' -> ~ stuck (w' +++ s').
Proof. intros (l1 & r & l2 & E & M & _) Eq St. apply (St k r w s); auto. rewrite E. apply in_elt. Qed.
Lemma lexes_unique pos s ts : lexes pos s ts -> forall ts', lexes pos s ts' -> ~ In SymError (map fst ts) -> ts = ts'.
Proof.
  induction 1 as [pos|pos x w s ts Ht Hl IH|pos w s ts Ht Hl IH|pos w s ts Hn St Hl IH]; intros ts' H' Ne.
  - remember ""%string as t eqn:Et. destruct H' as [|? ? w s ? Ht|? w s ? Ht|? w s ? Hn]; auto; (destruct w; [|discriminate]); [apply token_pos in Ht; inversion Ht..|now destruct Hn].
  - remember (w +++ s) as t eqn:Et. destruct H' as [pos|pos x' w' s' ts' Ht' Hl'|pos w' s' ts' Ht' Hl'|pos w' s' ts' Hn' St' Hl'].
    + apply token_pos in Ht. destruct w; [simpl in Ht; lia|discriminate].
    + destruct (token_unique _ _ _ _ _ _ Ht Ht') as ([= <-] & <- & <-); auto. f_equal. apply IH; auto. intros Hi. apply Ne. now right.
    + destruct (token_unique _ _ _ _ _ _ Ht Ht') as (E & _); [auto|discriminate].
    + now apply (token_not_stuck _ _ _ _ _ Ht (eq_sym Et)) in St'.
  - remember (w +++ s) as t eqn:Et. destruct H' as [pos|pos x' w' s' ts' Ht' Hl'|pos w' s' ts' Ht' Hl'|pos w' s' ts' Hn' St' Hl'].
    + apply token_pos in Ht. destruct w; [simpl in Ht; lia|discriminate].
    + destruct (token_unique _ _ _ _ _ _ Ht Ht') as (E & _); [auto|discriminate].
    + destruct (token_unique _ _ _ _ _ _ Ht Ht') as (_ & <- & <-); auto.
    + now apply (token_not_stuck _ _ _ _ _ Ht (eq_sym Et)) in St'.
  - exfalso. apply Ne. now left.
Qed.
Lemma lexes_kinds src pos s ts : lexes pos s ts -> src = s -> pos = 0 -> Forall (fun t => fst t = SymError \/ exists r, In (Some (fst t), r) lexicon) ts.
Proof.
  intros H -> ->. apply Forall_forall. intros [x [a b]] Hi. destruct (lexes_text s 0 s ts H "" eq_refl eq_refl x a b Hi) as (_ & _ & _ & [->|(r & Hr & _)]); [now left|right; eauto].
Qed.
End Tokens.

(** ** code blocks *)
Lemma lit_ok s w : matches (lit s) w <-> w = s.
Proof.
  revert w. induction s as [|c s IH]; intros w; simpl.
  - split; intros H; [now inversion H|subst; constructor].
  - split; intros H.
    + inversion H as [| |? ? v u Hv Hu| | | |]; subst. inversion Hv as [|? c' Hc| | | | |]; subst. apply Ascii.eqb_eq in Hc. subst. apply IH in Hu. now subst.
    + subst. change (String c s) with (String c "" +++ s). constructor; [constructor; apply Ascii.eqb_refl|now apply IH].
Qed.
Lemma seq_inv r s w : matches (RSeq r s) w -> exists v u, w = v +++ u /\ matches r v /\ matches s u.
Proof. intros H. inversion H as [| |? ? v u Hv Hu| | | |]; subst. eauto. Qed.
Lemma code_inv w : matches re_code w <-> exists c, w = "->" +++ c +++ "}%" /\
  matches (RStar (RAlt (RChar (not_in ["}"%char])) (RSeq (RChar (Ascii.eqb "}")) (RChar (not_in ["%"%char]))))) c.
Proof.
  split.
  - intros H. apply seq_inv in H as (v & u & -> & Hv & Hu). apply lit_ok in Hv. subst v. apply seq_inv in Hu as (c & e & -> & Hc & He). apply lit_ok in He. subst e. eauto.
  - intros (c & -> & H). apply m_seq; [now apply lit_ok|]. apply m_seq; [exact H|now apply lit_ok].
Qed.
Lemma code_ends w : matches re_code w -> exists c, w = "->" +++ c +++ "}%".
Proof. intros H. apply code_inv in H as (c & E & _). eauto. Qed.

(** the automaton of the inner part of a code block: whether a brace is pending *)
Fixpoint inner (pending : bool) (s : string) : option bool :=
  match s with
  | EmptyString => Some pending
  | String c s' => if pending then (if Ascii.eqb c "%" then None else inner false s') else inner (Ascii.eqb c "}") s'
  end.
Lemma inner_app b v w : inner b (v +++ w) = match inner b v with Some b' => inner b' w | None => None end.
Proof. revert b. induction v as [|c v IH]; intros b; simpl; [reflexivity|]. destruct b; [destruct (Ascii.eqb c "%"); auto|auto]. Qed.
Local Notation chunks := (RStar (RAlt (RChar (not_in ["}"%char])) (RSeq (RChar (Ascii.eqb "}")) (RChar (not_in ["%"%char]))))).
Lemma not_in_one a c : not_in [a] c = negb (Ascii.eqb c a).
Proof. unfold not_in. simpl. now rewrite orb_false_r. Qed.
Lemma chunks_inner c : matches chunks c <-> inner false c = Some false.
Proof.
  split.
  - remember chunks as r eqn:Er. induction 1 as [| | | | | |r v w Hv _ Hw IH]; try discriminate; auto. injection Er as ->. rewrite inner_app.
    assert (inner false v = Some false) as ->; [|now apply IH].
    inversion Hv as [| | |? ? ? Hx|? ? ? Hx| |]; subst.
    + inversion Hx as [|? x Hc| | | | |]; subst. rewrite not_in_one in Hc. apply negb_true_iff in Hc. simpl. now rewrite Hc.
    + apply seq_inv in Hx as (a & b & -> & Ha & Hb). inversion Ha as [|? x Hc| | | | |]; subst. inversion Hb as [|? y Hd| | | | |]; subst.
      apply Ascii.eqb_eq in Hc. subst x. rewrite not_in_one in Hd. apply negb_true_iff in Hd. simpl. now rewrite Hd.
  - remember (len c) as n eqn:En. assert (L : len c <= n) by lia. clear En. revert c L. induction n as [|n IH]; intros c L H.
    + destruct c; [constructor|simpl in L; lia].
    + destruct c as [|x c]; [constructor|]. simpl in H, L. destruct (Ascii.eqb x "}") eqn:E.
      * destruct c as [|y c]; [discriminate|]. simpl in H, L. destruct (Ascii.eqb y "%") eqn:E'; [discriminate|].
        change (String x (String y c)) with ((String x "" +++ String y "") +++ c). constructor; [|apply IH; [lia|exact H]].
        apply m_right. constructor; constructor; [now rewrite Ascii.eqb_sym|]. rewrite not_in_one. now rewrite E'.
      * change (String x c) with (String x "" +++ c). constructor; [|apply IH; [lia|exact H]]. apply m_left. constructor. rewrite not_in_one. now rewrite E.
Qed.
Lemma inner_none b c : inner b c = None -> contains (if b then String "}" c else c) "}%".
Proof.
  revert b. induction c as [|x c IH]; intros b H; simpl in H; [discriminate|]. destruct b.
  - destruct (Ascii.eqb x "%") eqn:E; [apply Ascii.eqb_eq in E; subst; now exists ""%string, c|].
    apply IH in H as (a & d & ->). now exists (String "}" (String x a)), d.
  - destruct (Ascii.eqb x "}") eqn:E.
    + apply Ascii.eqb_eq in E. subst x. now apply IH in H.
    + apply IH in H as (a & d & ->). now exists (String x a), d.
Qed.
Lemma last_char (s : string) : s = ""%string \/ exists d x, s = d +++ String x "".
Proof. induction s as [|c s [->|(d & x & ->)]]; [now left|right..]; [now exists ""%string, c|now exists (String c d), x]. Qed.
Lemma inner_braces k : forall b, inner b (braces k) = Some (xorb b (Nat.odd k)).
Proof.
  induction k as [|k IH]; intros b; [cbn; now rewrite xorb_false_r|]. cbn [braces inner]. rewrite Nat.odd_succ, <- Nat.negb_odd.
  destruct b; rewrite IH; cbn; destruct (Nat.odd k); reflexivity.
Qed.
Lemma inner_trail d k : ~ contains (d +++ braces k) "}%" -> (forall d', d <> d' +++ "}") -> inner false (d +++ braces k) = Some (Nat.odd k).
Proof.
  intros H L. rewrite inner_app. assert (inner false d = Some false) as ->; [|rewrite inner_braces; now destruct (Nat.odd k)].
  destruct (inner false d) as [b|] eqn:E.
  - f_equal. destruct (last_char d) as [->|(e & x & ->)]; [now injection E as <-|]. rewrite inner_app in E.
    destruct (inner false e) as [b'|]; [|discriminate]. destruct b'; simpl in E; [destruct (Ascii.eqb x "%"); [discriminate|now injection E as <-]|].
    injection E as <-. destruct (Ascii.eqb x "}") eqn:E; [|reflexivity]. apply Ascii.eqb_eq in E. subst x. now elim (L e).
  - exfalso. apply inner_none in E as (a & b & ->). apply H. exists a, (b +++ braces k). now rewrite !sapp_assoc.
Qed.

Section Code.
Variable lg : logos.
Local Notation lexicon := (lexicon lg).
Local Notation token_at := (token_at lg).
Lemma dash_only k r w : In (k, r) lexicon -> matches r (String "-" w) -> k = Some CodeBlock /\ r = re_code.
Proof.
  intros Hi M. apply deriv_ok in M.
  assert (H : forall k r, In (k, r) lexicon -> deriv "-" r = RNone \/ (k = Some CodeBlock /\ r = re_code)).
  { clear. intros k r H. simpl in H. repeat (destruct H as [[= <- <-]|H]; [first [left; reflexivity|right; split; reflexivity]|]). easy. }
  destruct (H _ _ Hi) as [E|[-> ->]]; [rewrite E in M; inversion M|auto].
Qed.
Lemma code_token c s : inner false c = Some false -> token_at (Some CodeBlock) ("->" +++ c +++ "}%") s.
Proof.
  intros Hc. exists (firstn 16 lexicon), re_code, (skipn 17 lexicon). split; [reflexivity|]. split; [apply code_inv; exists c; split; [reflexivity|now apply chunks_inner]|]. split.
  - intros k r w' s' Hi E M. destruct w' as [|x w']; [simpl; lia|].
    assert (x = "-"%char) as -> by (simpl in E; now injection E).
    apply (dash_only _ _ _ Hi) in M as Hr. destruct Hr as (-> & ->).
    apply code_inv in M as (c' & Ew & Hc'). apply chunks_inner in Hc'. rewrite Ew in *. clear Ew w' Hi. simpl in E. injection E as E. rewrite !sapp_assoc in E.
    destruct (le_lt_dec (len c') (len c)) as [L|L]; [rewrite !len_app; simpl; lia|]. exfalso.
    assert (exists d, c' = c +++ d /\ ("}%" +++ s = d +++ "}%" +++ s') /\ d <> ""%string) as (d & -> & Ed & Nd).
    { clear Hc Hc'. revert c' E L. induction c as [|x c IH]; intros c' E L.
      - exists c'. split; [auto|]. split; auto. intros ->. simpl in L. lia.
      - destruct c' as [|y c']; [simpl in L; lia|]. simpl in E, L. injection E as <- E. destruct (IH c' E) as (d & -> & Ed & Nd); [lia|]. now exists d. }
    rewrite inner_app, Hc in Hc'. destruct d as [|x [|y d]]; [now elim Nd|simpl in Ed; injection Ed as <- Ed; discriminate|].
    simpl in Ed. injection Ed as <- <- _. discriminate.
  - intros k r Hi M. assert (H : forall k r, In (k, r) (firstn 16 lexicon) -> deriv "-" r = RNone).
    { clear. intros k r H. simpl in H. repeat (destruct H as [[= <- <-]|H]; [reflexivity|]). easy. }
    apply H in Hi. simpl in M. apply deriv_ok in M. rewrite Hi in M. inversion M.
Qed.
Lemma code_no_token c k s : inner false c = Some true -> ~ token_at k ("->" +++ c +++ "}%") s.
Proof.
  intros Hc (l1 & r & l2 & E & M & _). assert (Hi : In (k, r) lexicon) by (rewrite E; apply in_elt).
  simpl in M. destruct (dash_only _ _ _ Hi M) as (-> & ->). change (matches re_code ("->" +++ c +++ "}%")) in M.
  apply code_inv in M as (c' & Ec & Hc'). simpl in Ec. injection Ec as Ec. assert (len c = len c') as L.
  { apply (f_equal len) in Ec. rewrite !len_app in Ec. lia. }
  apply sapp_inv in Ec as [<- _]; [|auto]. apply chunks_inner in Hc'. congruence.
Qed.
Theorem code_block_end d k rest : ~ contains (d +++ braces k) "}%" -> (forall d', d <> d' +++ "}") ->
  (Nat.Even k -> token_at (Some CodeBlock) ("->" +++ (d +++ braces k) +++ "}%") rest) /\
  (Nat.Odd k -> forall x, ~ token_at x ("->" +++ (d +++ braces k) +++ "}%") rest).
Proof.
  intros H L. pose proof (inner_trail d k H L) as E. split; intros K.
  - apply code_token. rewrite E. apply Nat.even_spec in K. rewrite <- Nat.negb_even, K. reflexivity.
  - intros x. apply code_no_token. rewrite E. apply Nat.odd_spec in K. now rewrite K.
Qed.
End Code.
