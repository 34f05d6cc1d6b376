(** The tokens of a source in UTF-8 start and end between characters. *)
From Coq Require Import List Bool Arith Lia Ascii String.
From Verif Require Import BTree Model Wop WopSpec WopLex WopLexSpec WopLexP WopPrint WopPrintSpec.
Import ListNotations.
Local Open Scope list_scope.
Local Notation len := String.length.
Local Infix "+++" := String.append (right associativity, at level 60).

Lemma app_split (x y z w : string) : x +++ y = z +++ w -> len x <= len z -> exists v, z = x +++ v /\ y = v +++ w.
Proof.
  revert z. induction x as [|c x IH]; intros z E L; [exists z; auto|]. destruct z as [|d z]; simpl in *; [lia|]. injection E as -> E.
  destruct (IH z E) as (v & -> & ->); [lia|]. exists v. auto.
Qed.
Lemma char_ne c : char c -> 0 < len c.
Proof. intros (l & r & -> & _). simpl. lia. Qed.
Lemma char_unique c d a b : char c -> char d -> c +++ a = d +++ b -> c = d /\ a = b.
Proof.
  intros (l & r & -> & _ & Lr & _) (m & q & -> & _ & Lq & _) E. apply sapp_inv; auto. simpl in *. injection E as -> E. congruence.
Qed.
Lemma utf8_app a b : utf8 a -> utf8 b -> utf8 (a +++ b).
Proof. induction 1; intros Hb; simpl; auto. rewrite sapp_assoc. constructor; auto. Qed.
Lemma utf8_char c : char c -> utf8 c.
Proof. intros H. rewrite <- (sapp_nil c). constructor; [auto|constructor]. Qed.
Lemma utf8_cancel a b : utf8 a -> utf8 (a +++ b) -> utf8 b.
Proof.
  induction 1 as [|c s Hc Hs IH]; intros H; [exact H|]. rewrite sapp_assoc in H. apply IH.
  remember (c +++ s +++ b) as x eqn:Ex. destruct H as [|d y Hd Hy].
  - destruct c; [|discriminate]. now apply char_ne in Hc.
  - destruct (char_unique _ _ _ _ Hd Hc Ex) as [-> ->]. exact Hy.
Qed.
Definition small (c : ascii) : Prop := nat_of_ascii c < 128.
Lemma small_cont c : small c -> continuation c = false.
Proof. unfold small, continuation. intros H. assert (128 <=? nat_of_ascii c = false) as -> by (apply Nat.leb_gt; lia). reflexivity. Qed.
Lemma small_char c : small c -> char (String c "").
Proof.
  intros H. exists c, ""%string. split; auto. split; [now apply small_cont|]. split; [|constructor]. simpl. unfold announces.
  assert (nat_of_ascii c <? 192 = true) as -> by (apply Nat.ltb_lt; unfold small in H; lia). reflexivity.
Qed.
Definition starts_char (s : string) : Prop := match s with EmptyString => True | String c _ => continuation c = false end.
Lemma utf8_starts s : utf8 s -> starts_char s.
Proof. destruct 1 as [|c s (l & r & -> & Hl & _) _]; simpl; auto. Qed.
Lemma utf8_before a b : utf8 (a +++ b) -> starts_char b -> utf8 a /\ utf8 b.
Proof.
  intros H Hb. remember (a +++ b) as x eqn:Ex. revert a Ex. induction H as [|c s Hc Hs IH]; intros a Ex.
  - destruct a; [|discriminate]. simpl in Ex. subst b. split; constructor.
  - destruct (le_lt_dec (len c) (len a)) as [L|L].
    + destruct (app_split _ _ _ _ Ex L) as (v & -> & E). destruct (IH _ E) as [H1 H2]. split; auto. now constructor.
    + destruct (app_split _ _ _ _ (eq_sym Ex)) as (v & -> & E); [lia|]. destruct a as [|y a]; [simpl in *; subst b; split; [constructor|now constructor]|].
      exfalso. destruct Hc as (l & r & E1 & _ & _ & Hr). simpl in E1. injection E1 as -> E1. subst r b. rewrite len_app in L. destruct v as [|z v]; [simpl in L; lia|]. simpl in Hb.
      assert (In z (list_ascii_of_string (a +++ String z v))) as Hi by (clear; induction a; simpl; auto).
      rewrite Forall_forall in Hr. specialize (Hr _ Hi). change (continuation z = true) in Hr. congruence.
Qed.
Lemma utf8_after a c b : utf8 (a +++ String c b) -> small c -> utf8 (a +++ String c "") /\ utf8 b.
Proof.
  intros H Hc. apply utf8_before in H as [Ha Hb]; [|simpl; now apply small_cont]. pose proof (small_char c Hc) as Hch. split.
  - apply utf8_app; auto. now apply utf8_char.
  - apply (utf8_cancel (String c "")); auto. now apply utf8_char.
Qed.
Lemma cuts_boundary src i : cuts src i -> boundary src i = true.
Proof.
  intros (a & b & -> & <- & _ & Hb). unfold boundary. apply orb_true_iff. right. apply utf8_starts in Hb.
  assert (String.get (len a) (a +++ b) = String.get 0 b) as ->. { induction a; simpl; auto. }
  destruct b as [|c b]; simpl in *; [rewrite len_app; simpl; apply Nat.eqb_eq; lia|]. now rewrite Hb.
Qed.
Lemma cuts_slice src a b : cuts src a -> cuts src b -> a <= b -> from_source src (a, b) = Val (slice src (a, b)).
Proof. intros Ha Hb L. unfold from_source. cbn [fst snd]. now rewrite (cuts_boundary _ _ Ha), (cuts_boundary _ _ Hb), (proj2 (Nat.leb_le _ _) L). Qed.

(** ** where tokens end *)
Definition ends (r : regex) : Prop := forall w, matches r w -> exists v c, w = v +++ String c "" /\ small c.
Lemma ends_seq r s : ends s -> ends (RSeq r s).
Proof. intros H w M. apply seq_inv in M as (v & u & -> & _ & Hu). destruct (H _ Hu) as (x & c & -> & Hc). exists (v +++ x), c. rewrite sapp_assoc. auto. Qed.
Lemma ends_char p : (forall c, p c = true -> small c) -> ends (RChar p).
Proof. intros H w M. inversion M as [|? c Hc| | | | |]; subst. exists ""%string, c. auto. Qed.
Lemma ends_one c : small c -> ends (RChar (Ascii.eqb c)).
Proof. intros H. apply ends_char. intros d E. apply Ascii.eqb_eq in E. now subst. Qed.
Lemma ends_lit s c : small c -> ends (lit (s +++ String c "")).
Proof. intros Hc w M. apply lit_ok in M. subst. eauto. Qed.
Lemma ends_star r : ends r -> forall w, matches (RStar r) w -> w = ""%string \/ exists v c, w = v +++ String c "" /\ small c.
Proof.
  intros H w M. remember (RStar r) as q eqn:Eq. induction M as [| | | | | |r' v w Hv _ Hw IH]; try discriminate; [now left|]. injection Eq as ->. right.
  destruct (IH eq_refl) as [->|(x & c & -> & Hc)]; [rewrite sapp_nil; now apply H|]. exists (v +++ x), c. rewrite sapp_assoc. auto.
Qed.
Lemma ends_plus r : ends r -> ends (RSeq r (RStar r)).
Proof.
  intros H w M. apply seq_inv in M as (v & u & -> & Hv & Hu). destruct (ends_star r H u Hu) as [->|(x & c & -> & Hc)]; [rewrite sapp_nil; auto|].
  exists (v +++ x), c. rewrite sapp_assoc. auto.
Qed.
Ltac tiny := unfold small; apply Nat.ltb_lt; reflexivity.
Lemma between_small a b c : small b -> between a b c = true -> small c.
Proof. unfold between, small. intros H E. apply andb_prop in E as [_ E]. apply Nat.leb_le in E. lia. Qed.
Lemma letter_small c : letter c = true -> small c.
Proof.
  unfold letter. intros H. repeat (apply orb_prop in H as [H|H]); [eapply between_small; [|exact H]; tiny..|]. apply Ascii.eqb_eq in H. subst. tiny.
Qed.
Lemma word_small c : word c = true -> small c.
Proof. unfold word. intros H. apply orb_prop in H as [H|H]; [now apply letter_small|eapply between_small; [|exact H]; tiny]. Qed.

Section Tokens.
Variable lg : logos.
Hypothesis Hlg : by_chars lg.

Lemma one_of_ok l w : matches (one_of l) w -> In w l.
Proof.
  induction l as [|s l IH]; simpl; intros M; [inversion M|]. inversion M as [| | |? ? ? Hx|? ? ? Hx| |]; subst; [left; symmetry; now apply lit_ok|right; auto].
Qed.
Lemma ident_utf8 w : matches (re_ident lg) w -> utf8 w.
Proof.
  intros M. apply seq_inv in M as (v & u & -> & Hv & Hu). apply utf8_app.
  - inversion Hv as [|? c Hc| | | | |]; subst. apply utf8_char, small_char, letter_small, Hc.
  - remember (RStar (RAlt (RChar word) (one_of (wide lg)))) as q eqn:Eq. induction Hu as [| | | | | |r' a b Ha _ Hb IH]; try discriminate; [constructor|]. injection Eq as ->.
    apply utf8_app; auto. inversion Ha as [| | |? ? ? Hx|? ? ? Hx| |]; subst.
    + inversion Hx as [|? c Hc| | | | |]; subst. apply utf8_char, small_char, word_small, Hc.
    + apply one_of_ok in Hx. destruct Hlg as [Hw _]. rewrite Forall_forall in Hw. apply utf8_char. auto.
Qed.

(** a line comment reaches to the end of the line *)
Definition no_lf (s : string) : Prop := Forall (fun c => c <> lf) (list_ascii_of_string s).
Lemma no_lf_app a b : no_lf (a +++ b) <-> no_lf a /\ no_lf b.
Proof.
  unfold no_lf. rewrite <- Forall_app. assert (list_ascii_of_string (a +++ b) = list_ascii_of_string a ++ list_ascii_of_string b) as ->; [|reflexivity].
  induction a; simpl; congruence.
Qed.
Lemma not_lf c : not_in [lf] c = true <-> c <> lf.
Proof. rewrite not_in_one. rewrite negb_true_iff. apply Ascii.eqb_neq. Qed.
Lemma star_no_lf w : matches (RStar (RChar (not_in [lf]))) w <-> no_lf w.
Proof.
  split.
  - intros M. remember (RStar (RChar (not_in [lf]))) as q eqn:Eq. induction M as [| | | | | |r' v w Hv _ Hw IH]; try discriminate; [constructor|]. injection Eq as ->.
    apply no_lf_app. split; auto. inversion Hv as [|? c Hc| | | | |]; subst. apply not_lf in Hc. now repeat constructor.
  - induction w as [|c w IH]; intros H; [constructor|]. inversion H; subst. change (String c w) with (String c "" +++ w). constructor; [|auto]. constructor. now apply not_lf.
Qed.
Lemma line_ok w : matches re_line_comment w <-> exists v, w = "//" +++ v /\ no_lf v.
Proof.
  split.
  - intros M. apply seq_inv in M as (a & b & -> & Ha & Hb). apply lit_ok in Ha. subst a. exists b. split; [auto|].
    apply seq_inv in Hb as (x & y & -> & Hx & Hy). apply star_no_lf in Hx. apply no_lf_app. split; auto. inversion Hy as [| | |? ? ? Hz|? ? ? Hz| |]; subst.
    + inversion Hz as [|? c Hc| | | | |]; subst. apply Ascii.eqb_eq in Hc. subst c. repeat constructor. discriminate.
    + inversion Hz; subst. constructor.
  - intros (v & -> & H). constructor; [now apply lit_ok|]. rewrite <- (sapp_nil v). constructor; [now apply star_no_lf|]. apply m_right. constructor.
Qed.
Lemma line_end k w s : token_at lg k w s -> matches re_line_comment w -> starts_char s.
Proof.
  intros (l1 & r & l2 & El & _ & Mx & _) M. destruct s as [|c s]; [exact Logic.I|]. simpl. destruct (Ascii.eqb c lf) eqn:E; [apply Ascii.eqb_eq in E; subst; reflexivity|].
  exfalso. apply Ascii.eqb_neq in E. apply line_ok in M as (v & -> & Hv).
  assert (M' : matches re_line_comment (("//" +++ v) +++ String c "")). { apply line_ok. exists (v +++ String c ""). split; [now rewrite sapp_assoc|]. apply no_lf_app. split; auto. now repeat constructor. }
  assert (Hi : In (None, re_line_comment) (lexicon lg)) by (unfold lexicon; do 15 right; now left).
  assert (Es : ("//" +++ v) +++ String c s = (("//" +++ v) +++ String c "") +++ s) by now rewrite (sapp_assoc _ (String c "") s).
  specialize (Mx _ _ _ _ Hi Es M'). rewrite (len_app _ (String c "")) in Mx. simpl in Mx. lia.
Qed.

Lemma token_utf8 k w s : token_at lg k w s -> utf8 (w +++ s) -> utf8 w /\ utf8 s.
Proof.
  intros Ht Hu. pose proof Ht as (l1 & r & l2 & El & M & _). assert (Hi : In (k, r) (lexicon lg)) by (rewrite El; apply in_elt). clear El l1 l2.
  assert (C : ends r \/ r = re_ident lg \/ r = re_line_comment).
  { clear - Hi. unfold lexicon in Hi. simpl in Hi.
    repeat (destruct Hi as [[= <- <-]|Hi]; [first [now right; left|now right; right|left]|]); [..|destruct Hi].
    1: exact (ends_lit "alia" "s" ltac:(tiny)).
    1: exact (ends_lit "us" "e" ltac:(tiny)).
    1: exact (ends_lit "" "=" ltac:(tiny)).
    1: exact (ends_lit "" "|" ltac:(tiny)).
    1: exact (ends_lit "" "(" ltac:(tiny)).
    1: exact (ends_lit "" ")" ltac:(tiny)).
    1: exact (ends_lit "" ";" ltac:(tiny)).
    1: exact (ends_lit ":" ":" ltac:(tiny)).
    1: exact (ends_lit "" ":" ltac:(tiny)).
    1: exact (ends_lit "" "*" ltac:(tiny)).
    1: exact (ends_lit "" "?" ltac:(tiny)).
    1: exact (ends_lit "" "&" ltac:(tiny)).
    - apply ends_seq, ends_seq, ends_one. tiny.
    - apply ends_seq, ends_seq. exact (ends_lit "*" "/" ltac:(tiny)).
    - apply ends_seq, ends_seq. exact (ends_lit "}" "%" ltac:(tiny)).
    - apply ends_plus, ends_char. intros c H. simpl in H. repeat (apply orb_prop in H as [H|H]; [apply Ascii.eqb_eq in H; subst; tiny|]). discriminate. }
  destruct C as [H|[->| ->]].
  - destruct (H _ M) as (v & c & -> & Hc). rewrite sapp_assoc in Hu. now apply utf8_after in Hu.
  - pose proof (ident_utf8 _ M) as Hw. split; auto. now apply utf8_cancel in Hu.
  - apply utf8_before; auto. eapply line_end; eauto.
Qed.

Lemma scan_cuts n : forall p s, len s <= n -> utf8 p -> utf8 s -> Forall (fun t => cuts (p +++ s) (fst (snd t)) /\ cuts (p +++ s) (snd (snd t))) (scan lg n (len p) s).
Proof.
  induction n as [|n IH]; intros p s L Hp Hs; [constructor|]. destruct s as [|c s]; [constructor|]. set (s0 := String c s) in *. cbn [scan].
  change (match s0 with EmptyString => [] | String _ _ => match best (lexicon lg) s0 with
      | Some (Some x, m) => (x, (len p, len p + m)) :: scan lg n (len p + m) (drop m s0)
      | Some (None, j) => scan lg n (len p + j) (drop j s0)
      | None => (SymError, (len p, len p + Nat.min (S (extent lg s0)) (len s0))) :: scan lg n (len p + Nat.min (S (extent lg s0)) (len s0)) (drop (Nat.min (S (extent lg s0)) (len s0)) s0)
      end end) with (match best (lexicon lg) s0 with
      | Some (Some x, m) => (x, (len p, len p + m)) :: scan lg n (len p + m) (drop m s0)
      | Some (None, j) => scan lg n (len p + j) (drop j s0)
      | None => (SymError, (len p, len p + Nat.min (S (extent lg s0)) (len s0))) :: scan lg n (len p + Nat.min (S (extent lg s0)) (len s0)) (drop (Nat.min (S (extent lg s0)) (len s0)) s0)
      end).
  assert (Q : forall w t, s0 = w +++ t -> 0 < len w -> utf8 w -> utf8 t ->
    cuts (p +++ s0) (len p) /\ cuts (p +++ s0) (len p + len w) /\
    Forall (fun t => cuts (p +++ s0) (fst (snd t)) /\ cuts (p +++ s0) (snd (snd t))) (scan lg n (len p + len w) t)).
  { intros w t E Hw Uw Ut. rewrite E in *. split; [exists p, (w +++ t); repeat split; auto|]. split; [exists (p +++ w), t; rewrite sapp_assoc, len_app; repeat split; auto; now apply utf8_app|].
    rewrite <- len_app, <- sapp_assoc. apply IH; auto; [rewrite len_app in L; lia|now apply utf8_app]. }
  destruct (best (lexicon lg) s0) as [[k m]|] eqn:Eb.
  - destruct (best_token lg _ _ _ Eb) as (w & t & Es & Lw & Ht). pose proof (token_pos _ _ _ _ Ht) as Hw. rewrite Es in Hs. destruct (token_utf8 _ _ _ Ht Hs) as [Uw Ut].
    destruct (Q w t Es Hw Uw Ut) as (Q1 & Q2 & Q3). subst m. assert (drop (len w) s0 = t) as -> by (rewrite Es; apply drop_app).
    destruct k; [|exact Q3]. constructor; [auto|exact Q3].
  - destruct Hlg as [_ He]. destruct (He s0 Hs) as (w & t & Es & Lw & Uw & Ut); [discriminate|].
    assert (Hw : 0 < len w) by (rewrite Lw; subst s0; simpl; lia). rewrite <- Lw. destruct (Q w t Es Hw Uw Ut) as (Q1 & Q2 & Q3).
    assert (drop (len w) s0 = t) as -> by (rewrite Es; apply drop_app). constructor; [auto|exact Q3].
Qed.
Theorem tokens_cut src : utf8 src -> Forall (fun t => cuts src (fst (snd t)) /\ cuts src (snd (snd t))) (tokenize lg src).
Proof. intros H. exact (scan_cuts (len src) "" src (le_n _) utf8_nil H). Qed.
End Tokens.
