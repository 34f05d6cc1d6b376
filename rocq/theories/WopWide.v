(** A text of ASCII characters has the same tokens whatever characters beyond ASCII identifiers may contain. *)
From Coq Require Import List Bool Arith Lia Ascii String.
From Verif Require Import BTree Model Wop WopSpec WopLex WopLexSpec WopLexP WopEx.
Import ListNotations.
Local Open Scope list_scope.
Local Notation len := String.length.
Local Infix "+++" := String.append (right associativity, at level 60).

(** only characters below 128 *)
Fixpoint ascii_text (s : string) : bool := match s with EmptyString => true | String c s' => (nat_of_ascii c <? 128) && ascii_text s' end.
(** [\w] matches, beyond [a-zA-Z0-9_], only characters beyond ASCII *)
Definition beyond_ascii (lg : logos) : Prop := Forall (fun w => match w with String c _ => 128 <= nat_of_ascii c | EmptyString => False end) (wide lg).

Lemma ascii_app a b : ascii_text (a +++ b) = ascii_text a && ascii_text b.
Proof. induction a as [|c a IH]; [reflexivity|]. cbn [append ascii_text]. rewrite IH. apply andb_assoc. Qed.
Lemma alt_inv r r' w : matches (RAlt r r') w -> matches r w \/ matches r' w.
Proof. intros H. inversion H; subst; auto. Qed.
Lemma one_of_in l w : matches (one_of l) w -> In w l.
Proof.
  induction l as [|a l IH]; intros H; [inversion H|]. change (matches (RAlt (lit a) (one_of l)) w) in H. inversion H; subst; [left; symmetry; now apply lit_ok|right; auto].
Qed.
Lemma star_mono r r' w : (forall v, ascii_text v = true -> matches r v -> matches r' v) -> ascii_text w = true -> matches (RStar r) w -> matches (RStar r') w.
Proof.
  intros H Ha Hm. remember (RStar r) as q eqn:Eq. revert Ha. induction Hm as [| | | | | |r0 a b Ha' _ Hb IH]; try discriminate; injection Eq as ->; intros Hab; [constructor|].
  rewrite ascii_app in Hab. apply andb_prop in Hab as [H1 H2]. apply m_star; auto.
Qed.
Lemma ident_wide lg w : beyond_ascii lg -> ascii_text w = true -> (matches (re_ident lg) w <-> matches (re_ident one) w).
Proof.
  intros Hl Ha. unfold re_ident. split; intros H; apply seq_inv in H as (v & u & -> & H1 & H2); apply m_seq; auto; rewrite ascii_app in Ha; apply andb_prop in Ha as [_ Ha]; revert H2; apply star_mono; auto.
  - intros x Hx Hm. apply alt_inv in Hm as [Hm|Hm]; [now apply m_left|]. apply one_of_in in Hm. unfold beyond_ascii in Hl. rewrite Forall_forall in Hl. apply Hl in Hm.
    destruct x as [|c x]; [contradiction|]. cbn [ascii_text] in Hx. apply andb_prop in Hx as [Hx _]. apply Nat.ltb_lt in Hx. lia.
  - intros x Hx Hm. apply alt_inv in Hm as [Hm|Hm]; [now apply m_left|]. apply one_of_in in Hm. destruct Hm.
Qed.
Lemma longest_same r r' s : (forall w t, s = w +++ t -> (matches r w <-> matches r' w)) -> longest r s = longest r' s.
Proof.
  intros H. destruct (longest r s) as [n|] eqn:E, (longest r' s) as [n'|] eqn:E'; auto.
  - apply longest_some in E as (w & t & E1 & E2 & E3 & E4). apply longest_some in E' as (w' & t' & E1' & E2' & E3' & E4'). f_equal.
    pose proof (E4 _ _ E1' (proj2 (H _ _ E1') E3')). pose proof (E4' _ _ E1 (proj1 (H _ _ E1) E3)). lia.
  - apply longest_some in E as (w & t & E1 & E2 & E3 & E4). destruct (longest_none _ _ E' _ _ E1 (proj1 (H _ _ E1) E3)).
  - apply longest_some in E' as (w & t & E1 & E2 & E3 & E4). destruct (longest_none _ _ E _ _ E1 (proj2 (H _ _ E1) E3)).
Qed.
Lemma best_same l l' s : Forall2 (fun a b => fst a = fst b /\ longest (snd a) s = longest (snd b) s) l l' -> best l s = best l' s.
Proof. induction 1 as [|[k r] [k' r'] l l' [H1 H2] F IH]; [reflexivity|]. cbn [fst snd] in *. subst k'. cbn [best]. now rewrite H2, IH. Qed.
Lemma lexicon_same lg s : beyond_ascii lg -> ascii_text s = true -> best (lexicon lg) s = best (lexicon one) s.
Proof.
  intros Hl Ha. apply best_same. unfold lexicon. repeat (apply Forall2_cons; [split; [reflexivity|try reflexivity]|]); [|constructor].
  apply longest_same. intros w t ->. apply ident_wide; auto. rewrite ascii_app in Ha. now apply andb_prop in Ha as [Ha _].
Qed.
Lemma drop_ascii n : forall s, ascii_text s = true -> ascii_text (drop n s) = true.
Proof. induction n as [|n IH]; intros [|c s] H; auto. cbn [drop]. apply IH. cbn [ascii_text] in H. now apply andb_prop in H as [_ H]. Qed.
Lemma scan_same lg n : beyond_ascii lg -> forall pos s, ascii_text s = true -> ~ In SymError (map fst (scan one n pos s)) -> scan lg n pos s = scan one n pos s.
Proof.
  intros Hl. induction n as [|n IH]; intros pos s Ha Hn; [reflexivity|]. destruct s as [|c s]; [reflexivity|]. cbn [scan] in *. rewrite (lexicon_same lg _ Hl Ha). destruct (best (lexicon one) (String c s)) as [[[x|] m]|].
  - rewrite IH; auto using drop_ascii. intros Hi. apply Hn. now right.
  - apply IH; auto using drop_ascii.
  - destruct Hn. now left.
Qed.
Theorem tokenize_same lg src : beyond_ascii lg -> ascii_text src = true -> ~ In SymError (map fst (tokenize one src)) -> tokenize lg src = tokenize one src.
Proof. intros. unfold tokenize. now apply scan_same. Qed.
