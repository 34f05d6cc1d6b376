(** Sources with characters beyond ASCII, for the examples of Prop_Print.v. *)
From Coq Require Import List Bool Arith Lia Ascii String Permutation.
From Verif Require Import BTree Model Strings Base Mono Wop WopSpec WopParse WopExport WopLex WopLexSpec WopLexP WopText WopMain WopRun WopEx WopEx2 WopPrint WopPrintSpec WopUtf.
Import ListNotations.
Local Open Scope string_scope.
Local Open Scope list_scope.
Local Open Scope nat_scope.

(** [\w] matches é, and an error covers one character *)
Definition chars : logos := mkLogos ["é"] (fun s => match s with String c _ => announces c | EmptyString => 0 end).
Lemma by_chars_chars : by_chars chars.
Proof.
  split.
  - constructor; [|constructor]. exists "195"%char, (String "169" ""). repeat split; repeat constructor.
  - intros s H Hs. inversion H as [E|c r Hc Hr E]; [now subst|]. pose proof Hc as (a & t & Ec & H1 & H2 & H3). exists c, r. split; [reflexivity|].
    assert (len_c : String.length c = S (announces a)) by (rewrite Ec; simpl; lia).
    split; [|split; [now apply utf8_char|exact Hr]]. rewrite Ec at 2. cbn [extent chars String.append]. rewrite len_app, len_c. lia.
Qed.

(** the characters of a text *)
Fixpoint decode (n : nat) (s : string) : bool :=
  match n, s with
  | _, EmptyString => true
  | 0, _ => false
  | S n', String c r =>
      negb (continuation c) && (announces c <=? String.length r) &&
      forallb continuation (list_ascii_of_string (substring 0 (announces c) r)) && decode n' (substring (announces c) (String.length r - announces c) r)
  end.
Lemma split_at n : forall s, n <= String.length s -> s = (substring 0 n s ++ substring n (String.length s - n) s)%string /\ String.length (substring 0 n s) = n.
Proof.
  induction n as [|n IH]; intros s L.
  - rewrite Nat.sub_0_r. clear L. assert (forall t, substring 0 (String.length t) t = t) as E by (induction t as [|c t IHt]; simpl; congruence). rewrite E. destruct s; split; reflexivity.
  - destruct s as [|c s]; [simpl in L; lia|]. simpl in L |- *. destruct (IH s ltac:(lia)) as [E1 E2]. split; [f_equal; exact E1|congruence].
Qed.
Lemma decode_utf8 n : forall s, decode n s = true -> utf8 s.
Proof.
  induction n as [|n IH]; intros s E; (destruct s as [|c r]; [constructor|]); [discriminate|]. cbn [decode] in E. apply andb_prop in E as [E E4]. apply andb_prop in E as [E E3]. apply andb_prop in E as [E1 E2].
  apply Nat.leb_le in E2. destruct (split_at _ _ E2) as [Er El]. rewrite Er. change (utf8 (String c (substring 0 (announces c) r) ++ substring (announces c) (String.length r - announces c) r)).
  constructor; [|now apply IH]. exists c, (substring 0 (announces c) r). split; [reflexivity|]. split; [now apply negb_true_iff|]. split; [exact El|]. apply Forall_forall. now apply forallb_forall.
Qed.

Definition accent_src : string := "S: T = cafés:x ""ü"" -> { x }% ; // ñ".
Definition odd_src : string := "S: T = a -> { x }% ; a ü".
Definition run_with (dbg : bool) (src : string) : res (outcome sym * string) :=
  wop_main (slice src) keep same dbg 400 (map (fun t => lexed (fst t) (snd t)) (tokenize chars src)).
Lemma run_with_main dbg src r : run_with dbg src = r -> r <> Fuel -> runs_main chars keep same dbg src r.
Proof. intros E Hr. exists 400. intros fuel Hf. rewrite <- E. apply main_rle; [exact Hf|]. unfold run_with in E. now rewrite E. Qed.
Definition code_with (dbg : bool) (src : string) : string := match run_with dbg src with Val (_, s) => s | _ => "" end.
Lemma accent_runs dbg : by_chars chars /\ utf8 accent_src /\ from_source accent_src (7, 11) = Panic P_index /\
  runs_main chars keep same dbg accent_src (Val (Ok, code_with dbg accent_src)) /\ contains (code_with dbg accent_src) "vec![cafés, ""ü"", ]".
Proof.
  split; [apply by_chars_chars|]. split; [apply (decode_utf8 100); vm_compute; reflexivity|]. split; [vm_compute; reflexivity|].
  split; [apply run_with_main; [destruct dbg; vm_compute; reflexivity|discriminate]|]. apply has_contains. destruct dbg; vm_compute; reflexivity.
Qed.
Lemma odd_runs dbg : utf8 odd_src /\ runs_main chars keep same dbg odd_src (Val (Err (UnexpectedToken SymError [Assign; Pipe; OpenParen; CloseParen; Sc; PathAccess; TwoDots; Optional; Ident; StrLit; CodeBlock]), code_with dbg odd_src)).
Proof.
  split; [apply (decode_utf8 100); vm_compute; reflexivity|]. apply run_with_main; [destruct dbg; vm_compute; reflexivity|discriminate].
Qed.

(** a tree *)
Lemma parse_rle dbg n m ts : n <= m -> rle (wop_parse dbg n ts) (wop_parse dbg m ts).
Proof.
  intros L. unfold wop_parse. apply rle_bind; [apply rle_refl|]. intros g. apply rle_bind; [now apply slr_new_rle|]. intros t.
  apply rle_bind; [apply rle_refl|]. intros d. apply rle_bind; [now apply start_rle|]. intros [d' o]. apply rle_refl.
Qed.
Definition items_of (dbg : bool) (src : string) : list gramem := match wop_parse dbg 400 (tokenize chars src) with Val (_, l) => l | _ => [] end.
Lemma items_parsed dbg src o : match wop_parse dbg 400 (tokenize chars src) with Val (o, _) => Some o | _ => None end = Some o -> parsed chars dbg src o (items_of dbg src).
Proof.
  unfold items_of. destruct (wop_parse dbg 400 (tokenize chars src)) as [[o' l]|p|] eqn:E; try discriminate. intros [= <-]. exists 400. intros fuel L.
  assert (R := parse_rle dbg 400 fuel (tokenize chars src) L). rewrite E in R. now apply (rle_val _ _ _ R).
Qed.
Lemma accent_tree dbg : parsed chars dbg accent_src Ok (items_of dbg accent_src) /\ map g_span (items_of dbg accent_src) = [(0, 32)] /\
  map g_span (flat_map children (items_of dbg accent_src)) = [(0, 30)] /\
  map (fun s => slice accent_src (g_span s)) (flat_map children (flat_map children (items_of dbg accent_src))) = ["cafés:x"; """ü"""].
Proof. split; [apply items_parsed; destruct dbg; vm_compute; reflexivity|]. repeat split; destruct dbg; vm_compute; reflexivity. Qed.
Lemma accent_lines dbg : exists g, items_of dbg accent_src = [g] /\ exists l, print_nested (fun s => s) accent_src g "" 0 = Val l /\
  nth_error l 5 = Some ("      - RuleItem: " ++ bright "cafés:x")%string /\ nth_error l 6 = Some ("        IdentPath: " ++ bright "cafés")%string.
Proof.
  destruct (items_of dbg accent_src) as [|g [|? ?]] eqn:E; [destruct dbg; vm_compute in E; discriminate| |destruct dbg; vm_compute in E; discriminate].
  exists g. split; [reflexivity|]. destruct dbg; vm_compute in E; injection E as <-; eexists; (split; [vm_compute; reflexivity|]); split; reflexivity.
Qed.
Lemma accent_item dbg : exists g, items_of dbg accent_src = [g] /\ exists h i s, inside h g /\ g_ast h = ARuleItem i false (Some s) true /\ slice accent_src s = "x".
Proof.
  destruct (items_of dbg accent_src) as [|g [|? ?]] eqn:E; [destruct dbg; vm_compute in E; discriminate| |destruct dbg; vm_compute in E; discriminate].
  exists g. split; [reflexivity|]. destruct dbg; vm_compute in E; injection E as <-; do 3 eexists;
    (split; [eapply inside_child; [left; reflexivity|]; eapply inside_child; [left; reflexivity|]; apply inside_here|]); split; reflexivity.
Qed.
