(** Where comments and string literals end. *)
From Coq Require Import List Bool Arith Lia Ascii String.
From Verif Require Import BTree Model Strings Wop WopSpec WopLex WopLexSpec WopLexP WopRead WopEx.
Import ListNotations.
Local Open Scope list_scope.
Local Notation len := String.length.
Local Infix "+++" := String.append (right associativity, at level 60).

(** [k] asterisks *)
Fixpoint stars (k : nat) : string := match k with 0 => ""%string | S n => String "*" (stars n) end.
(** the inside of a string literal: no quote except behind a backslash, no backslash except before another character of the line *)
Inductive literal : string -> Prop :=
| lit_nil : literal ""
| lit_char c s : c <> quote -> c <> backslash -> literal s -> literal (String c s)
| lit_escape c s : c <> lf -> literal s -> literal (String backslash (String c s)).
(** no line feed in [s] *)
Definition one_line (s : string) : Prop := ~ contains s (String lf "").
Definition line_ends (s : string) : Prop := s = ""%string \/ exists s', s = String lf s'.

(** ** block comments *)
Local Notation chunks := (RStar (RAlt (RChar (not_in ["*"%char])) (RSeq (RChar (Ascii.eqb "*")) (RChar (not_in ["/"%char]))))).
Fixpoint within (pending : bool) (s : string) : option bool :=
  match s with
  | EmptyString => Some pending
  | String c s' => if pending then (if Ascii.eqb c "/" then None else within false s') else within (Ascii.eqb c "*") s'
  end.
Lemma within_app b v w : within b (v +++ w) = match within b v with Some b' => within b' w | None => None end.
Proof. revert b. induction v as [|c v IH]; intros b; simpl; [reflexivity|]. destruct b; [destruct (Ascii.eqb c "/"); auto|auto]. Qed.
Lemma comment_inv w : matches re_block_comment w <-> exists c, w = "/*" +++ c +++ "*/" /\ matches chunks c.
Proof.
  split.
  - intros H. apply seq_inv in H as (v & u & -> & Hv & Hu). apply lit_ok in Hv. subst v. apply seq_inv in Hu as (c & e & -> & Hc & He). apply lit_ok in He. subst e. eauto.
  - intros (c & -> & H). apply m_seq; [now apply lit_ok|]. apply m_seq; [exact H|now apply lit_ok].
Qed.
Lemma chunks_within c : matches chunks c <-> within false c = Some false.
Proof.
  split.
  - remember chunks as r eqn:Er. induction 1 as [| | | | | |r v w Hv _ Hw IH]; try discriminate; auto. injection Er as ->. rewrite within_app.
    assert (within false v = Some false) as ->; [|now apply IH].
    inversion Hv as [| | |? ? ? Hx|? ? ? Hx| |]; subst.
    + inversion Hx as [|? x Hc| | | | |]; subst. rewrite not_in_one in Hc. apply negb_true_iff in Hc. simpl. now rewrite Hc.
    + apply seq_inv in Hx as (a & b & -> & Ha & Hb). inversion Ha as [|? x Hc| | | | |]; subst. inversion Hb as [|? y Hd| | | | |]; subst.
      apply Ascii.eqb_eq in Hc. subst x. rewrite not_in_one in Hd. apply negb_true_iff in Hd. simpl. now rewrite Hd.
  - remember (len c) as n eqn:En. assert (L : len c <= n) by lia. clear En. revert c L. induction n as [|n IH]; intros c L H.
    + destruct c; [constructor|simpl in L; lia].
    + destruct c as [|x c]; [constructor|]. simpl in H, L. destruct (Ascii.eqb x "*") eqn:E.
      * destruct c as [|y c]; [discriminate|]. simpl in H, L. destruct (Ascii.eqb y "/") eqn:E'; [discriminate|].
        change (String x (String y c)) with ((String x "" +++ String y "") +++ c). constructor; [|apply IH; [lia|exact H]].
        apply m_right. constructor; constructor; [now rewrite Ascii.eqb_sym|]. rewrite not_in_one. now rewrite E'.
      * change (String x c) with (String x "" +++ c). constructor; [|apply IH; [lia|exact H]]. apply m_left. constructor. rewrite not_in_one. now rewrite E.
Qed.
Lemma within_none b c : within b c = None -> contains (if b then String "*" c else c) "*/".
Proof.
  revert b. induction c as [|x c IH]; intros b H; simpl in H; [discriminate|]. destruct b.
  - destruct (Ascii.eqb x "/") eqn:E; [apply Ascii.eqb_eq in E; subst; now exists ""%string, c|].
    apply IH in H as (a & d & ->). now exists (String "*" (String x a)), d.
  - destruct (Ascii.eqb x "*") eqn:E.
    + apply Ascii.eqb_eq in E. subst x. now apply IH in H.
    + apply IH in H as (a & d & ->). now exists (String x a), d.
Qed.
Lemma within_stars k : forall b, within b (stars k) = Some (xorb b (Nat.odd k)).
Proof.
  induction k as [|k IH]; intros b; [cbn; now rewrite xorb_false_r|]. cbn [stars within]. rewrite Nat.odd_succ, <- Nat.negb_odd.
  destruct b; rewrite IH; cbn; destruct (Nat.odd k); reflexivity.
Qed.
Lemma within_trail d k : ~ contains (d +++ stars k) "*/" -> (forall d', d <> d' +++ "*") -> within false (d +++ stars k) = Some (Nat.odd k).
Proof.
  intros H L. rewrite within_app. assert (within false d = Some false) as ->; [|rewrite within_stars; now destruct (Nat.odd k)].
  destruct (within false d) as [b|] eqn:E.
  - f_equal. destruct (last_char d) as [->|(e & x & ->)]; [now injection E as <-|]. rewrite within_app in E.
    destruct (within false e) as [b'|]; [|discriminate]. destruct b'; simpl in E; [destruct (Ascii.eqb x "/"); [discriminate|now injection E as <-]|].
    injection E as <-. destruct (Ascii.eqb x "*") eqn:E; [|reflexivity]. apply Ascii.eqb_eq in E. subst x. now elim (L e).
  - exfalso. apply within_none in E as (a & b & ->). apply H. exists a, (b +++ stars k). now rewrite !sapp_assoc.
Qed.

(** ** string literals *)
Local Notation parts := (RStar (RAlt (RChar (not_in [quote; backslash])) (RSeq (RChar (Ascii.eqb backslash)) (RChar (not_in [lf]))))).
Lemma not_in_two a b c : not_in [a; b] c = true <-> c <> a /\ c <> b.
Proof.
  unfold not_in. simpl. rewrite orb_false_r, negb_true_iff, orb_false_iff, !Ascii.eqb_neq. tauto.
Qed.
Lemma parts_literal d : matches parts d <-> literal d.
Proof.
  split.
  - remember parts as r eqn:Er. induction 1 as [| | | | | |r v w Hv _ Hw IH]; try discriminate; [constructor|]. injection Er as ->. specialize (IH eq_refl).
    inversion Hv as [| | |? ? ? Hx|? ? ? Hx| |]; subst.
    + inversion Hx as [|? x Hc| | | | |]; subst. apply not_in_two in Hc as [H1 H2]. simpl. now constructor.
    + apply seq_inv in Hx as (a & b & -> & Ha & Hb). inversion Ha as [|? x Hc| | | | |]; subst. inversion Hb as [|? y Hd| | | | |]; subst.
      apply Ascii.eqb_eq in Hc. subst x. rewrite not_in_one in Hd. apply negb_true_iff, Ascii.eqb_neq in Hd. simpl. now constructor.
  - induction 1 as [|c s H1 H2 _ IH|c s H1 _ IH]; [constructor| |].
    + change (String c s) with (String c "" +++ s). constructor; [|exact IH]. apply m_left. constructor. now apply not_in_two.
    + change (String backslash (String c s)) with ((String backslash "" +++ String c "") +++ s). constructor; [|exact IH]. apply m_right.
      constructor; constructor; [reflexivity|]. rewrite not_in_one. now apply negb_true_iff, Ascii.eqb_neq.
Qed.
Lemma str_inv w : matches re_str w <-> exists d, w = String quote (d +++ String quote "") /\ literal d.
Proof.
  split.
  - intros H. apply seq_inv in H as (v & u & -> & Hv & Hu). inversion Hv as [|? x Hc| | | | |]; subst. apply Ascii.eqb_eq in Hc. subst x.
    apply seq_inv in Hu as (d & e & -> & Hd & He). inversion He as [|? x Hc| | | | |]; subst. apply Ascii.eqb_eq in Hc. subst x. exists d. split; [reflexivity|]. now apply parts_literal.
  - intros (d & -> & H). change (String quote (d +++ String quote "")) with (String quote "" +++ d +++ String quote ""). apply m_seq; [constructor; reflexivity|].
    apply m_seq; [now apply parts_literal|constructor; reflexivity].
Qed.
Lemma literal_end d d' s s' : literal d -> literal d' -> d +++ String quote s = d' +++ String quote s' -> d = d'.
Proof.
  intros H. revert d'. induction H as [|c d H1 H2 Hd IH|c d H1 Hd IH]; intros d' H' E.
  - destruct H'; [reflexivity| |]; simpl in E; injection E as E _; [now subst|discriminate].
  - destruct H' as [|c' d' H1' H2' H'|c' d' H1' H']; simpl in E; injection E as E E'; [now subst| |now subst]. subst. f_equal. now apply IH.
  - destruct H' as [|c' d' H1' H2' H'|c' d' H1' H']; simpl in E; [discriminate|injection E as E E'; now subst|injection E as -> E]. do 2 f_equal. now apply IH.
Qed.

(** ** line comments *)
Lemma one_line_cons c s : one_line (String c s) <-> c <> lf /\ one_line s.
Proof.
  unfold one_line, contains. split.
  - intros H. split; [intros ->; apply H; now exists ""%string, s|]. intros (a & b & ->). apply H. now exists (String c a), b.
  - intros [H1 H2] (a & b & E). destruct a as [|x a]; simpl in E; injection E as -> E; [now apply H1|]. apply H2. now exists a, b.
Qed.
Lemma rest_line w : matches (RStar (RChar (not_in [lf]))) w <-> one_line w.
Proof.
  split.
  - remember (RStar (RChar (not_in [lf]))) as r eqn:Er. induction 1 as [| | | | | |r v w Hv _ Hw IH]; try discriminate; [intros (a & b & E); destruct a; discriminate|]. injection Er as ->.
    inversion Hv as [|? x Hc| | | | |]; subst. rewrite not_in_one in Hc. apply negb_true_iff, Ascii.eqb_neq in Hc. apply one_line_cons. auto.
  - induction w as [|c w IH]; intros H; [constructor|]. apply one_line_cons in H as [H1 H2]. change (String c w) with (String c "" +++ w). constructor; [|auto].
    constructor. rewrite not_in_one. now apply negb_true_iff, Ascii.eqb_neq.
Qed.
Lemma one_line_app a b : one_line a -> one_line b -> one_line (a +++ b).
Proof. induction a as [|c a IH]; simpl; auto. intros Ha Hb. apply one_line_cons in Ha as [H1 H2]. apply one_line_cons. auto. Qed.
Lemma line_inv w : matches re_line_comment w <-> exists d, w = "//" +++ d /\ one_line d.
Proof.
  split.
  - intros H. apply seq_inv in H as (v & u & -> & Hv & Hu). apply lit_ok in Hv. subst v. exists u. split; [reflexivity|]. apply seq_inv in Hu as (c & e & -> & Hc & He). apply rest_line in Hc.
    apply one_line_app; [exact Hc|]. inversion He as [| | |? ? ? Hx|? ? ? Hx| |]; subst; inversion Hx as [|? x Hd| | | | |]; subst.
    + apply Ascii.eqb_eq in Hd. subst x. apply one_line_cons. split; [discriminate|]. intros (a & b & E). destruct a; discriminate.
    + intros (a & b & E). destruct a; discriminate.
  - intros (d & -> & H). apply m_seq; [now apply lit_ok|]. rewrite <- (sapp_nil d). apply m_seq; [now apply rest_line|apply m_right; constructor].
Qed.
Lemma line_longest d s d' s' : one_line d' -> line_ends s -> d +++ s = d' +++ s' -> len d' <= len d.
Proof.
  intros H Hs. revert d' H. induction d as [|c d IH]; intros d' H E.
  - simpl in E. destruct d' as [|x d']; [auto|]. apply one_line_cons in H as [H _]. destruct Hs as [->|(t & ->)]; [discriminate|]. simpl in E. injection E as E _. now elim H.
  - destruct d' as [|x d']; [simpl; lia|]. simpl in E |- *. injection E as -> E. apply one_line_cons in H as [_ H]. apply le_n_S. now apply IH.
Qed.

Section Tokens.
Variable lg : logos.
Local Notation lexicon := (lexicon lg).
Local Notation token_at := (token_at lg).
Lemma slash_only k r w : In (k, r) lexicon -> matches r (String "/" w) -> k = None /\ (r = re_block_comment \/ r = re_line_comment).
Proof.
  intros Hi M. apply deriv_ok in M.
  assert (H : forall k r, In (k, r) lexicon -> deriv "/" r = RNone \/ (k = None /\ (r = re_block_comment \/ r = re_line_comment))).
  { clear. intros k r H. simpl in H. repeat (destruct H as [[= <- <-]|H]; [first [left; reflexivity|right; split; [reflexivity|tauto]]|]). easy. }
  destruct (H _ _ Hi) as [E|H']; [rewrite E in M; inversion M|auto].
Qed.
Lemma star_only k r w : In (k, r) lexicon -> matches r (String "/" (String "*" w)) -> k = None /\ r = re_block_comment.
Proof.
  intros Hi M. destruct (slash_only _ _ _ Hi M) as (-> & [-> | ->]); auto. exfalso. apply line_inv in M as (d & E & _). discriminate.
Qed.
Lemma slashes_only k r w : In (k, r) lexicon -> matches r (String "/" (String "/" w)) -> k = None /\ r = re_line_comment.
Proof.
  intros Hi M. destruct (slash_only _ _ _ Hi M) as (-> & [-> | ->]); auto. exfalso. apply comment_inv in M as (d & E & _). discriminate.
Qed.
Lemma early n k r w : n <= 14 -> In (k, r) (firstn n lexicon) -> ~ matches r (String "/" w).
Proof.
  intros Hn Hi M. assert (H : forall k r, In (k, r) (firstn 14 lexicon) -> deriv "/" r = RNone).
  { clear. intros k r H. simpl in H. repeat (destruct H as [[= <- <-]|H]; [reflexivity|]). easy. }
  assert (Hi' : In (k, r) (firstn 14 lexicon)). { rewrite <- (firstn_skipn n (firstn 14 lexicon)), firstn_firstn, Nat.min_l by exact Hn. apply in_or_app. now left. }
  apply H in Hi'. apply deriv_ok in M. rewrite Hi' in M. inversion M.
Qed.

Lemma block_token c s : within false c = Some false -> token_at None ("/*" +++ c +++ "*/") s.
Proof.
  intros Hc. exists (firstn 14 lexicon), re_block_comment, (skipn 15 lexicon). split; [reflexivity|]. split; [apply comment_inv; exists c; split; [reflexivity|now apply chunks_within]|]. split.
  - intros k r w' s' Hi E M. destruct w' as [|x [|y w']]; [simpl; lia|simpl; lia|].
    simpl in E. injection E as <- <- E. destruct (star_only _ _ _ Hi M) as (-> & ->).
    apply comment_inv in M as (c' & Ew & Hc'). simpl in Ew. injection Ew as ->. apply chunks_within in Hc'. rewrite !sapp_assoc in E.
    destruct (le_lt_dec (len c') (len c)) as [L|L]; [simpl; rewrite !len_app; simpl; lia|]. exfalso.
    assert (exists d, c' = c +++ d /\ ("*/" +++ s = d +++ "*/" +++ s') /\ d <> ""%string) as (d & -> & Ed & Nd).
    { clear Hc Hc'. revert c' E L. induction c as [|x c IH]; intros c' E L.
      - exists c'. split; [auto|]. split; auto. intros ->. simpl in L. lia.
      - destruct c' as [|y c']; [simpl in L; lia|]. simpl in E, L. injection E as <- E. destruct (IH c' E) as (d & -> & Ed & Nd); [lia|]. now exists d. }
    rewrite within_app, Hc in Hc'. destruct d as [|x [|y d]]; [now elim Nd|simpl in Ed; injection Ed as <- Ed; discriminate|].
    simpl in Ed. injection Ed as <- <- _. discriminate.
  - intros k r Hi. exact (early 14 k r _ (le_n _) Hi).
Qed.
Lemma block_no_token c k s : within false c = Some true -> ~ token_at k ("/*" +++ c +++ "*/") s.
Proof.
  intros Hc (l1 & r & l2 & E & M & _). assert (Hi : In (k, r) lexicon) by (rewrite E; apply in_elt).
  simpl in M. destruct (star_only _ _ _ Hi M) as (-> & ->). apply comment_inv in M as (c' & Ec & Hc'). simpl in Ec. injection Ec as Ec. assert (len c = len c') as L.
  { apply (f_equal len) in Ec. rewrite !len_app in Ec. lia. }
  apply sapp_inv in Ec as [<- _]; [|auto]. apply chunks_within in Hc'. congruence.
Qed.
Theorem comment_end d k rest : ~ contains (d +++ stars k) "*/" -> (forall d', d <> d' +++ "*") ->
  (Nat.Even k -> token_at None ("/*" +++ (d +++ stars k) +++ "*/") rest) /\
  (Nat.Odd k -> forall x, ~ token_at x ("/*" +++ (d +++ stars k) +++ "*/") rest).
Proof.
  intros H L. pose proof (within_trail d k H L) as E. split; intros K.
  - apply block_token. rewrite E. apply Nat.even_spec in K. rewrite <- Nat.negb_even, K. reflexivity.
  - intros x. apply block_no_token. rewrite E. apply Nat.odd_spec in K. now rewrite K.
Qed.

Theorem line_end d rest : one_line d -> line_ends rest -> token_at None ("//" +++ d) rest.
Proof.
  intros Hd Hr. exists (firstn 15 lexicon), re_line_comment, (skipn 16 lexicon). split; [reflexivity|]. split; [apply line_inv; eauto|]. split.
  - intros k r w' s' Hi E M. destruct w' as [|x [|y w']]; [simpl; lia|simpl; lia|].
    simpl in E. injection E as <- <- E. destruct (slashes_only _ _ _ Hi M) as (-> & ->). apply line_inv in M as (d' & Ew & Hd'). simpl in Ew. injection Ew as ->.
    simpl. do 2 apply le_n_S. eapply line_longest; eauto.
  - intros k r Hi M. assert (Hi' : In (k, r) (firstn 14 lexicon) \/ r = re_block_comment).
    { change (firstn 15 lexicon) with (firstn 14 lexicon ++ [(None, re_block_comment)]) in Hi. apply in_app_iff in Hi as [Hi|[[= <- <-]|[]]]; auto. }
    destruct Hi' as [Hi'| ->]; [exact (early 14 k r _ (le_n _) Hi' M)|]. apply comment_inv in M as (c & Ec & _). discriminate.
Qed.

Lemma quote_only k r w : In (k, r) lexicon -> matches r (String quote w) -> k = Some StrLit /\ r = re_str.
Proof.
  intros Hi M. apply deriv_ok in M.
  assert (H : forall k r, In (k, r) lexicon -> deriv quote r = RNone \/ (k = Some StrLit /\ r = re_str)).
  { clear. intros k r H. simpl in H. repeat (destruct H as [[= <- <-]|H]; [first [left; reflexivity|right; split; reflexivity]|]). easy. }
  destruct (H _ _ Hi) as [E|H']; [rewrite E in M; inversion M|auto].
Qed.
Lemma str_only k r : In (k, r) lexicon -> k = Some StrLit -> r = re_str.
Proof. intros H ->. simpl in H. repeat (destruct H as [H|H]; [first [discriminate H|injection H as <-; reflexivity]|]). easy. Qed.
Theorem string_end w rest : token_at (Some StrLit) w rest <-> exists d, w = String quote (d +++ String quote "") /\ literal d.
Proof.
  split.
  - intros (l1 & r & l2 & E & M & _). assert (Hi : In (Some StrLit, r) lexicon) by (rewrite E; apply in_elt). rewrite (str_only _ _ Hi eq_refl) in M. now apply str_inv.
  - intros (d & -> & Hd). exists (firstn 13 lexicon), re_str, (skipn 14 lexicon). split; [reflexivity|]. split; [apply str_inv; eauto|]. split.
    + intros k r w' s' Hi E M. destruct w' as [|x w']; [simpl; lia|]. simpl in E. injection E as <- E.
      destruct (quote_only _ _ _ Hi M) as (-> & ->). apply str_inv in M as (d' & Ew & Hd'). simpl in Ew. injection Ew as ->.
      rewrite !sapp_assoc in E. simpl in E. apply (literal_end _ _ _ _ Hd Hd') in E. subst d'. lia.
    + intros k r Hi M. assert (H : forall k r, In (k, r) (firstn 13 lexicon) -> deriv quote r = RNone).
      { clear. intros k r H. simpl in H. repeat (destruct H as [[= <- <-]|H]; [reflexivity|]). easy. }
      apply H in Hi. apply deriv_ok in M. rewrite Hi in M. inversion M.
Qed.
End Tokens.

(** ** a file in which a comment swallows a rule *)
Local Open Scope string_scope.
Definition star_src : string := "S: T = a -> { x }% ; /***/ R: T = b -> { y }% ; /* end */".
Lemma star_fine : fine star_src = true.
Proof. vm_compute. reflexivity. Qed.
Lemma star_rules dbg : map fst (b_rules (built_from dbg star_src)) = ["S"].
Proof. destruct dbg; vm_compute; reflexivity. Qed.
