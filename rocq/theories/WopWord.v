(** Blanks, names and signs in wop's sources (C138). *)
From Coq Require Import List Bool Arith Lia Ascii String.
From Verif Require Import BTree Model Wop WopSpec WopLex WopLexSpec WopLexP WopWide WopWordSpec.
Import ListNotations.
Local Open Scope list_scope.
Local Notation len := String.length.
Local Infix "+++" := String.append (right associativity, at level 60).
Local Notation code := nat_of_ascii.

Lemma every_app P a b : every P (a +++ b) <-> every P a /\ every P b.
Proof. induction a as [|c a IH]; cbn [append every]; [tauto|]. rewrite IH. tauto. Qed.
Lemma every_mono (P Q : ascii -> Prop) s : (forall c, P c -> Q c) -> every P s -> every Q s.
Proof. intros H. induction s as [|c s IH]; cbn; [auto|]. intros [H1 H2]. auto. Qed.

Lemma star_every p w : matches (RStar (RChar p)) w <-> every (fun c => p c = true) w.
Proof.
  split.
  - intros H. remember (RStar (RChar p)) as r eqn:Er. induction H as [| | | | | |r v w Hv _ Hw IH]; try discriminate; [exact I|]. injection Er as ->.
    apply every_app. split; auto. inversion Hv; subst. cbn. auto.
  - induction w as [|c w IH]; intros H; [constructor|]. destruct H as [H1 H2]. change (String c w) with (String c "" +++ w). apply m_star; auto. now constructor.
Qed.

(** which characters the expressions know *)
Lemma blank_ok c : existsb (Ascii.eqb c) [" "%char; tab; lf; cr] = true <-> blank c.
Proof.
  unfold blank. split.
  - intros H. apply existsb_exists in H as (x & Hx & E). apply Ascii.eqb_eq in E. subst x. cbn in Hx. repeat (destruct Hx as [<-|Hx]; [cbn; auto|]). contradiction.
  - intros H. apply existsb_exists. exists c. split; [|apply Ascii.eqb_refl]. rewrite <- (ascii_nat_embedding c). cbn [In] in H.
    repeat (destruct H as [<-|H]; [cbn; auto|]). contradiction.
Qed.
Lemma between_ok a b c : between a b c = true <-> code a <= code c <= code b.
Proof. unfold between. rewrite andb_true_iff, !Nat.leb_le. tauto. Qed.
Lemma letter_ok c : letter c = true <-> name_start c.
Proof.
  unfold letter, name_start. rewrite !orb_true_iff, !between_ok, Ascii.eqb_eq.
  change (code "a") with 97. change (code "z") with 122. change (code "A") with 65. change (code "Z") with 90.
  assert (c = "_"%char <-> code c = 95) as ->; [|tauto]. split; [intros ->; reflexivity|]. intros E. rewrite <- (ascii_nat_embedding c), E. reflexivity.
Qed.
Lemma word_ok c : word c = true <-> name_part c.
Proof. unfold word, name_part. rewrite orb_true_iff, letter_ok, between_ok. change (code "0") with 48. change (code "9") with 57. tauto. Qed.

Lemma ws_inv w : matches re_ws w <-> w <> ""%string /\ every blank w.
Proof.
  unfold re_ws. split.
  - intros H. apply seq_inv in H as (v & u & -> & Hv & Hu). apply star_every in Hu. inversion Hv as [|? c Hc| | | | |]; subst. split; [discriminate|].
    cbn [append every]. split; [now apply blank_ok|]. revert Hu. apply every_mono. intros x. apply blank_ok.
  - intros [N H]. destruct w as [|c w]; [congruence|]. destruct H as [H1 H2]. change (String c w) with (String c "" +++ w). apply m_seq; [constructor; now apply blank_ok|].
    apply star_every. revert H2. apply every_mono. intros x. apply blank_ok.
Qed.

Section Lex.
Variable lg : logos.
Local Notation lexicon := (lexicon lg).
Local Notation token_at := (token_at lg).
Local Notation stuck := (stuck lg).

Lemma token_best k w s : token_at k w s -> best lexicon (w +++ s) = Some (k, len w).
Proof.
  intros H. destruct (best lexicon (w +++ s)) as [[k' n]|] eqn:E.
  - apply best_token in E as (w' & s' & E & <- & H'). destruct (token_unique _ _ _ _ _ _ _ H H' E) as (-> & -> & _). reflexivity.
  - apply best_stuck in E. destruct (token_not_stuck _ _ _ _ _ _ H eq_refl E).
Qed.

(** ** the scanner: neither the limit nor the place matters *)
Lemma best_len s k n : best lexicon s = Some (k, n) -> 0 < n <= len s.
Proof. intros H. apply best_token in H as (w & t & -> & <- & H). split; [now apply token_pos in H|]. rewrite len_app. lia. Qed.
Lemma drop_len n s : n <= len s -> len (drop n s) = len s - n.
Proof. intros H. destruct (drop_split n s H) as (w & E & L). rewrite E at 2. rewrite len_app. lia. Qed.

Lemma scan_fuel n : forall m pos s, len s <= n -> len s <= m -> scan lg n pos s = scan lg m pos s.
Proof.
  induction n as [|n IH]; intros m pos s Hn Hm; [destruct s; [now destruct m|cbn in Hn; lia]|]. destruct m as [|m]; [destruct s; [reflexivity|cbn in Hm; lia]|].
  destruct s as [|c s]; [reflexivity|]. cbn [scan]. set (t := String c s) in *. assert (0 < len t) as Ht by (cbn; lia). destruct (best lexicon t) as [[k l]|] eqn:E.
  - pose proof (best_len _ _ _ E). rewrite (IH m (pos + l) (drop l t)); [reflexivity|rewrite drop_len; lia..].
  - rewrite (IH m); [reflexivity|rewrite drop_len; lia..].
Qed.
Lemma scan_later d n : forall pos s, scan lg n (d + pos) s = later d (scan lg n pos s).
Proof.
  induction n as [|n IH]; intros pos s; [reflexivity|]. destruct s as [|c s]; [reflexivity|]. cbn [scan]. set (t := String c s).
  destruct (best lexicon t) as [[[x|] l]|]; rewrite <- ?Nat.add_assoc, IH; reflexivity.
Qed.

(** ** blanks *)
Lemma blank_only c k r w : blank c -> In (k, r) lexicon -> matches r (String c w) -> k = None /\ r = re_ws.
Proof.
  intros Hb Hi M. apply deriv_ok in M.
  assert (H : forall k r, In (k, r) lexicon -> deriv c r = RNone \/ (k = None /\ r = re_ws)).
  { clear - Hb. rewrite <- (ascii_nat_embedding c). destruct Hb as [<-|[<-|[<-|[<-|[]]]]];
      (intros k r H; simpl in H; repeat (destruct H as [[= <- <-]|H]; [first [left; reflexivity|right; split; reflexivity]|]); easy). }
  destruct (H _ _ Hi) as [E|[-> ->]]; [rewrite E in M; inversion M|auto].
Qed.
Lemma blank_token w s : w <> ""%string -> every blank w -> next (fun c => ~ blank c) s -> token_at None w s.
Proof.
  intros N H Hs. exists (firstn 17 lexicon), re_ws, []. split; [reflexivity|]. split; [now apply ws_inv|]. split.
  - intros k r w' s' Hi E M. destruct w as [|c w]; [congruence|]. destruct w' as [|c' w']; [cbn; lia|]. injection E as <- E. destruct H as [Hc Hw].
    destruct (blank_only _ _ _ _ Hc Hi M) as (_ & ->). apply ws_inv in M as (_ & _ & Hw'). cbn [len]. apply le_n_S. clear - E Hw' Hs.
    revert w E. induction w' as [|x w' IH]; intros w E; [cbn; lia|]. destruct Hw' as [Hx Hw']. destruct w as [|y w].
    + cbn in E. subst s. cbn in Hs. contradiction.
    + injection E as _ E. cbn. apply le_n_S. auto.
  - intros k r Hi M. destruct w as [|c w]; [congruence|]. destruct H as [Hc _].
    destruct (blank_only c k r w Hc) as (-> & ->); auto; [|].
    { rewrite <- (firstn_skipn 17 lexicon). apply in_or_app. now left. }
    cbn in Hi. repeat (destruct Hi as [Hi|Hi]; [discriminate Hi|]). contradiction.
Qed.
Lemma blank_split s : exists w t, s = w +++ t /\ every blank w /\ next (fun c => ~ blank c) t.
Proof.
  induction s as [|c s (w & t & -> & H1 & H2)]; [now exists ""%string, ""%string|].
  destruct (existsb (Ascii.eqb c) [" "%char; tab; lf; cr]) eqn:E.
  - apply blank_ok in E. exists (String c w), t. cbn. auto.
  - exists ""%string, (String c (w +++ t)). cbn. split; auto. split; auto. intros Hb. apply blank_ok in Hb. cbn in *. congruence.
Qed.
Lemma scan_blank w t : every blank w -> next (fun c => ~ blank c) t -> tokenize lg (w +++ t) = later (len w) (tokenize lg t).
Proof.
  intros H Ht. destruct w as [|c w]; [exact (scan_later 0 _ 0 t)|]. pose proof (blank_token _ _ (fun E : String c w = ""%string => eq_ind (String c w) (fun s => match s with EmptyString => False | _ => True end) I _ E) H Ht) as Hk. apply token_best in Hk.
  unfold tokenize. change (len (String c w +++ t)) with (S (len (w +++ t))). remember (String c w) as v eqn:Ev.
  replace (scan lg (S (len (w +++ t))) 0 (v +++ t)) with (scan lg (len (w +++ t)) (0 + len v) (drop (len v) (v +++ t))).
  - rewrite drop_app, Nat.add_0_l, <- (Nat.add_0_r (len v)) at 1. rewrite scan_later. f_equal. apply scan_fuel; rewrite ?len_app; lia.
  - rewrite Ev. cbn [append scan]. rewrite <- Ev. change (String c (w +++ t)) with (String c w +++ t). rewrite <- Ev, Hk. reflexivity.
Qed.
Lemma later_later a b ts : later a (later b ts) = later (a + b) ts.
Proof. unfold later. rewrite map_map. apply map_ext. intros [x [i j]]. cbn. now rewrite !Nat.add_assoc. Qed.
Theorem blanks_skipped w s : every blank w -> tokenize lg (w +++ s) = later (len w) (tokenize lg s).
Proof.
  intros H. destruct (blank_split s) as (v & t & -> & Hv & Ht). rewrite <- sapp_assoc, !scan_blank, later_later, len_app; auto. apply every_app. auto.
Qed.

(** ** names *)
Definition cont (c : ascii) : Prop := name_part c \/ 128 <= code c.
Lemma ident_inv w : outside lg -> matches (re_ident lg) w -> exists c v, w = String c v /\ name_start c /\ every cont v.
Proof.
  intros Ho H. apply seq_inv in H as (u & v & -> & Hu & Hv). inversion Hu as [|? c Hc| | | | |]; subst. exists c, v. split; auto. split; [now apply letter_ok|].
  remember (RStar (RAlt (RChar word) (one_of (wide lg)))) as r eqn:Er. induction Hv as [| | | | | |r a b Ha _ Hb IH]; try discriminate; [exact I|]. injection Er as ->.
  apply every_app. split; auto. apply alt_inv in Ha as [Ha|Ha].
  - inversion Ha as [|? x Hx| | | | |]; subst. cbn. split; auto. left. now apply word_ok.
  - apply one_of_in in Ha. unfold outside in Ho. rewrite Forall_forall in Ho. apply Ho in Ha. revert Ha. apply every_mono. intros x Hx. now right.
Qed.
Lemma ident_name w : name w -> matches (re_ident lg) w.
Proof.
  intros (c & v & -> & Hc & Hv). change (String c v) with (String c "" +++ v). apply m_seq; [constructor; now apply letter_ok|].
  induction v as [|x v IH]; [constructor|]. destruct Hv as [Hx Hv]. change (String x v) with (String x "" +++ v). apply m_star; auto. apply m_left. constructor. now apply word_ok.
Qed.
Lemma start_only c k r w : name_start c -> In (k, r) lexicon -> matches r (String c w) ->
  (k = Some AliasWord /\ r = lit "alias") \/ (k = Some UseWord /\ r = lit "use") \/ (k = Some Ident /\ r = re_ident lg).
Proof.
  intros Hb Hi M. apply letter_ok in Hb. apply deriv_ok in M.
  assert (H : forall k r, In (k, r) lexicon -> deriv c r = RNone \/ (k = Some AliasWord /\ r = lit "alias") \/ (k = Some UseWord /\ r = lit "use") \/ (k = Some Ident /\ r = re_ident lg)).
  { clear - Hb. destruct c as [[] [] [] [] [] [] [] []]; try discriminate Hb; clear Hb; intros k r H; cbn [In WopLex.lexicon] in H;
      (repeat (destruct H as [[= <- <-]|H]; [first [left; reflexivity|right; left; split; reflexivity|right; right; left; split; reflexivity|right; right; right; split; reflexivity]|])); contradiction. }
  destruct (H _ _ Hi) as [E|E]; [rewrite E in M; inversion M|auto].
Qed.
Lemma name_longest w s w' s' : name w -> next (fun c => ~ cont c) s -> w +++ s = w' +++ s' -> every cont w' -> len w' <= len w.
Proof.
  intros _ Hs. revert w. induction w' as [|x w' IH]; intros w E H; [cbn; lia|]. destruct H as [Hx H]. destruct w as [|y w].
  - cbn in E. subst s. cbn in Hs. contradiction.
  - injection E as _ E. cbn. apply le_n_S. auto.
Qed.
Lemma start_cont c : name_start c -> cont c. Proof. intros H. left. now left. Qed.
Lemma word_matches w' : forall k r c v, outside lg -> w' = String c v -> name_start c -> In (k, r) lexicon -> matches r w' -> every cont w'.
Proof.
  intros k r c v Ho -> Hc Hi M. destruct (start_only _ _ _ _ Hc Hi M) as [[_ ->]|[[_ ->]|[_ ->]]].
  1, 2: apply lit_ok in M; rewrite M; cbn; repeat split; left; apply word_ok; reflexivity.
  apply ident_inv in M as (c' & v' & E & H1 & H2); auto. rewrite E. cbn. split; auto. now apply start_cont.
Qed.
Theorem name_token w s : outside lg -> name w -> next (fun c => ~ name_part c /\ code c < 128) s -> token_at (Some (kind w)) w s.
Proof.
  intros Ho Hw Hs. assert (next (fun c => ~ cont c) s) as Hs'. { destruct s; cbn in *; auto. intros [H|H]; [tauto|lia]. }
  assert (forall k' r' w' s', In (k', r') lexicon -> w +++ s = w' +++ s' -> matches r' w' -> len w' <= len w) as Mx.
  { intros k' r' w' s' Hi E M. destruct w' as [|c' w']; [cbn; lia|]. eapply name_longest; eauto. pose proof Hw as (c & v & Ew & Hc & _). rewrite Ew in E. injection E as <- _.
    eapply word_matches; eauto. }
  unfold kind. destruct (String.eqb_spec w "alias") as [->|Na]; [|destruct (String.eqb_spec w "use") as [->|Nu]].
  - exists [], (lit "alias"), (skipn 1 lexicon). split; [reflexivity|]. split; [now apply lit_ok|]. split; [exact Mx|]. intros k r [].
  - exists (firstn 1 lexicon), (lit "use"), (skipn 2 lexicon). split; [reflexivity|]. split; [now apply lit_ok|]. split; [exact Mx|]. intros k r [[= <- <-]|[]] M. apply (proj1 (lit_ok "alias" "use")) in M. discriminate.
  - exists (firstn 12 lexicon), (re_ident lg), (skipn 13 lexicon). split; [reflexivity|]. split; [now apply ident_name|]. split; [exact Mx|].
    intros k r Hi M. pose proof Hw as (c & v & -> & Hc & _). assert (In (k, r) lexicon) as Hi'. { rewrite <- (firstn_skipn 12 lexicon). apply in_or_app. now left. }
    destruct (start_only _ _ _ _ Hc Hi' M) as [[-> ->]|[[-> ->]|[-> ->]]]; [apply lit_ok in M; congruence..|].
    cbn in Hi. repeat (destruct Hi as [Hi|Hi]; [discriminate Hi|]). contradiction.
Qed.
Theorem ident_text w s : outside lg -> token_at (Some Ident) w s -> every (fun c => code c < 128) w -> name w /\ w <> "alias"%string /\ w <> "use"%string.
Proof.
  intros Ho (l1 & r & l2 & E & M & _ & Pr) Ha.
  assert (forall k r', In (k, r') lexicon -> k = Some Ident -> r' = re_ident lg) as Hr.
  { clear. intros k r H Hk. cbn [In WopLex.lexicon] in H. repeat (destruct H as [[= <- <-]|H]; [first [discriminate Hk|reflexivity]|]). contradiction. }
  assert (r = re_ident lg) as -> by (apply (Hr (Some Ident)); [rewrite E; apply in_elt|reflexivity]).
  split.
  - apply ident_inv in M as (c & v & -> & Hc & Hv); auto. exists c, v. split; auto. split; auto. destruct Ha as [_ Ha]. clear - Hv Ha.
    induction v as [|x v IH]; [exact I|]. destruct Hv as [[Hx|Hx] Hv], Ha as [Hy Ha]; [split; auto|lia].
  - destruct l1 as [|e1 [|e2 l1]]; try discriminate E. injection E as <- <- _. split; intros ->; [apply (Pr (Some AliasWord) (lit "alias"))|apply (Pr (Some UseWord) (lit "use"))]; cbn [In]; auto; now apply lit_ok.
Qed.

(** ** signs *)
Lemma sign_only k c v : In (k, String c v) signs -> forall k' r' u, In (k', r') lexicon -> matches r' (String c u) ->
  exists w', r' = lit w' /\ (w' = String c v \/ (c = ":"%char /\ (w' = ":" \/ w' = "::")%string)).
Proof.
  intros Hk k' r' u Hi M. apply deriv_ok in M.
  assert (H : forall k2 r2, In (k2, r2) lexicon -> deriv c r2 = RNone \/ exists w', r2 = lit w' /\ (w' = String c v \/ (c = ":"%char /\ (w' = ":" \/ w' = "::")%string))).
  { clear - Hk. cbn [In signs] in Hk.
    repeat (destruct Hk as [[= _ <- <-]|Hk]; [intros k2 r2 H; cbn [In WopLex.lexicon] in H;
      (repeat (destruct H as [[= <- <-]|H]; [first [left; reflexivity|right; first [(exists "="%string; split; [reflexivity|now auto])|(exists "|"%string; split; [reflexivity|now auto])|(exists "("%string; split; [reflexivity|now auto])|(exists ")"%string; split; [reflexivity|now auto])|(exists ";"%string; split; [reflexivity|now auto])|(exists "::"%string; split; [reflexivity|now auto])|(exists ":"%string; split; [reflexivity|now auto])|(exists "*"%string; split; [reflexivity|now auto])|(exists "?"%string; split; [reflexivity|now auto])|(exists "&"%string; split; [reflexivity|now auto])]]|])); contradiction|]). contradiction. }
  destruct (H _ _ Hi) as [E|E]; [rewrite E in M; inversion M|auto].
Qed.
Lemma sign_entry k w : In (k, w) signs -> exists l1 l2, lexicon = l1 ++ (Some k, lit w) :: l2 /\ forall k' r', In (k', r') l1 -> ~ matches r' w.
Proof.
  intros H. cbn [In signs] in H.
  destruct H as [[= <- <-]|[[= <- <-]|[[= <- <-]|[[= <- <-]|[[= <- <-]|[[= <- <-]|[[= <- <-]|[[= <- <-]|[[= <- <-]|[[= <- <-]|[]]]]]]]]]]].
  1: exists (firstn 2 lexicon), (skipn 3 lexicon).
  2: exists (firstn 3 lexicon), (skipn 4 lexicon).
  3: exists (firstn 4 lexicon), (skipn 5 lexicon).
  4: exists (firstn 5 lexicon), (skipn 6 lexicon).
  5: exists (firstn 6 lexicon), (skipn 7 lexicon).
  6: exists (firstn 7 lexicon), (skipn 8 lexicon).
  7: exists (firstn 8 lexicon), (skipn 9 lexicon).
  8: exists (firstn 9 lexicon), (skipn 10 lexicon).
  9: exists (firstn 10 lexicon), (skipn 11 lexicon).
  10: exists (firstn 11 lexicon), (skipn 12 lexicon).
  all: split; [reflexivity|]; intros k' r' H M; cbn [In firstn WopLex.lexicon] in H;
    (repeat (destruct H as [H|H]; [apply pair_equal_spec in H as [_ <-]; apply lit_ok in M; discriminate M|])); contradiction.
Qed.
Theorem sign_token k w s : In (k, w) signs -> (w = ":"%string -> next (fun c => c <> ":"%char) s) -> token_at (Some k) w s.
Proof.
  intros Hk Hs. destruct (sign_entry _ _ Hk) as (l1 & l2 & E & Pr). exists l1, (lit w), l2. split; auto. split; [now apply lit_ok|]. split; [|exact Pr].
  intros k' r' w' s' Hi Ew M. destruct w' as [|c w']; [cbn; lia|]. destruct w as [|c' w]; [cbn [In signs] in Hk; repeat (destruct Hk as [Hk|Hk]; [discriminate Hk|]); contradiction|].
  injection Ew as <- Ew. destruct (sign_only _ _ _ Hk _ _ _ Hi M) as (v & -> & Hv). apply lit_ok in M. rewrite M. destruct Hv as [-> | [-> [-> | ->]]]; [lia|cbn; lia|].
  injection M as ->. destruct w as [|x w]; [|cbn; lia]. cbn in Ew. subst s. cbn in Hs. now specialize (Hs eq_refl).
Qed.

(** ** what nothing starts with *)
Theorem other_stuck c s : code c < 128 -> ~ blank c -> ~ name_start c -> ~ In c openers -> stuck (String c s).
Proof.
  intros Hc Hb Hn Ho k r w s' Hi E M. destruct w as [|x w]; [now apply (lexicon_nonempty lg _ _ Hi) in M|]. injection E as <- _. apply deriv_ok in M.
  assert (Hb' : existsb (Ascii.eqb c) [" "%char; tab; lf; cr] = false) by (apply not_true_is_false; now rewrite blank_ok).
  assert (Hn' : letter c = false) by (apply not_true_is_false; now rewrite letter_ok).
  assert (Ho' : existsb (Ascii.eqb c) openers = false).
  { apply not_true_is_false. intros H. apply existsb_exists in H as (y & Hy & Ey). apply Ascii.eqb_eq in Ey. now subst y. }
  assert (H : forall k2 r2, In (k2, r2) lexicon -> deriv c r2 = RNone).
  { apply Nat.ltb_lt in Hc. clear - Hc Hb' Hn' Ho'. destruct c as [[] [] [] [] [] [] [] []]; try discriminate Hc; try discriminate Hb'; try discriminate Hn'; try discriminate Ho'; clear;
      intros k r H; cbn [In WopLex.lexicon] in H; (repeat (destruct H as [[= <- <-]|H]; [reflexivity|])); contradiction. }
  rewrite (H _ _ Hi) in M. inversion M.
Qed.
End Lex.
