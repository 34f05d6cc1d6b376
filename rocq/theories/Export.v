(** The property statements in the form in which the Prop_* files quote them. *)
From Coq Require Import List Bool Arith Lia.
From Verif Require Import BTree Model Base Spec SpecP GrammarP FirstFollow Closure Merged Interface Wrap Reduce Total Mono Bogus DfaParse Check Final More.
Import ListNotations.

Section Export.
Context {T : Type} {OT : Ord T}.
Variables (dbg : bool) (start eof : T) (rules : rulemap T) (g : grammar T).
Hypothesis W : wf_rules rules.
Hypothesis Hg : grammar_new dbg start rules eof = Val g.

Lemma only_tin t : t_grammar t = g -> only_terminals t <-> ((forall A x, tin (t_first t) A x -> term rules x) /\ (forall A x, tin (t_follow t) A x -> term rules x)).
Proof.
  intros Et. unfold only_terminals. rewrite Et, (Wr _ _ _ _ _ Hg). split.
  - intros H. split; intros A x (s & Hs & Hx); eauto.
  - intros [H1 H2] A s x [Hs|Hs] Hx; [apply (H1 A x)|apply (H2 A x)]; exists s; auto.
Qed.

(** *** C02 - C05 *)
Lemma first_exact t : tabler_makes dbg g t -> forall A a, nonterm rules A -> term rules a ->
  ((exists s, bm_get A (t_first t) = Some s /\ In a s) <-> exists v, derives rules [A] (a :: v)).
Proof.
  intros Ht A a HA Ha. pose proof (tmakes_facts _ _ _ _ _ W Hg _ Ht) as F.
  change (exists s, bm_get A (t_first t) = Some s /\ In a s) with (tin (t_first t) A a). rewrite (tf_first _ _ _ _ _ _ F); auto. unfold first_spec. tauto.
Qed.

Lemma follow_upper t : tabler_makes dbg g t -> term rules eof ->
  (forall A a, follow_rules rules start eof A a -> exists s, bm_get A (t_follow t) = Some s /\ In a s) /\
  (forall A a, nonterm rules A -> follow_deriv rules start eof A a -> exists s, bm_get A (t_follow t) = Some s /\ In a s).
Proof.
  intros Ht He. pose proof (tmakes_facts _ _ _ _ _ W Hg _ Ht) as F. split.
  - intros A a H. exact (tf_follow_complete _ _ _ _ _ _ F He A a H).
  - intros A a HA H. apply (tf_follow_complete _ _ _ _ _ _ F He A a). eapply deriv_follow; eauto. eapply tf_noempty; eauto.
Qed.

Lemma follow_exact t : tabler_makes dbg g t -> term rules eof -> dbg = true \/ only_terminals t ->
  (forall A a, term rules a -> ((exists s, bm_get A (t_follow t) = Some s /\ In a s) <-> follow_rules rules start eof A a)) /\
  (reachable rules start -> forall A a, nonterm rules A -> term rules a ->
     ((exists s, bm_get A (t_follow t) = Some s /\ In a s) <-> follow_deriv rules start eof A a)).
Proof.
  intros Ht He Ho. pose proof (tmakes_facts _ _ _ _ _ W Hg _ Ht) as F. destruct (tmakes_terminals _ _ _ _ _ W Hg _ Ht Ho) as [H1 _].
  destruct (follow_upper _ Ht He) as [U1 U2].
  assert (forall A a, term rules a -> (exists s, bm_get A (t_follow t) = Some s /\ In a s) -> follow_rules rules start eof A a) as L.
  { intros A a Ha H. exact (tf_follow_sound _ _ _ _ _ _ F He H1 A a Ha H). }
  split.
  - intros A a Ha. split; auto.
  - intros R A a HA Ha. split; auto. intros H. eapply follow_deriv_ok; eauto.
Qed.

Lemma tabler_total_only : noempty rules -> term rules eof -> no_left_cycle rules -> no_right_cycle rules ->
  exists t, tabler_makes dbg g t /\ only_terminals t.
Proof.
  intros NE He HL HR. destruct (tabler_total _ _ _ _ _ W Hg NE He HL HR) as (t & Ht & H1 & H2). exists t. split; auto.
  apply only_tin; auto. eapply tf_grammar, tmakes_facts; eauto.
Qed.

Lemma debug_only t : dbg = true -> tabler_makes dbg g t -> only_terminals t.
Proof.
  intros E Ht. apply only_tin; [eapply tf_grammar, tmakes_facts; eauto|]. eapply tmakes_terminals; eauto.
Qed.

Lemma empty_panics : ~ noempty rules -> forall fuel, tabler_new dbg fuel g = Panic P_assert.
Proof.
  intros H fuel. unfold tabler_new. rewrite gen_first_empty; [reflexivity| |]; rewrite (Wr _ _ _ _ _ Hg); auto.
Qed.

Lemma tabler_acyclic_exact : noempty rules -> term rules eof -> no_left_cycle rules -> no_right_cycle rules ->
  exists t, tabler_makes dbg g t /\ only_terminals t /\
    (forall A a, nonterm rules A -> ((exists s, bm_get A (t_first t) = Some s /\ In a s) <-> first_spec rules A a)) /\
    (forall A a, (exists s, bm_get A (t_follow t) = Some s /\ In a s) <-> term rules a /\ follow_rules rules start eof A a).
Proof.
  intros NE He HL HR. destruct (tabler_total_only NE He HL HR) as (t & Ht & Ho). exists t. split; auto. split; auto.
  pose proof Ho as Ho'. apply only_tin in Ho' as [O1 O2]; [|eapply tf_grammar, tmakes_facts; eauto].
  destruct (follow_exact t Ht He (or_intror Ho)) as [F _]. split.
  - intros A a HA. split.
    + intros H. assert (term rules a) as Ha by exact (O1 A a H). split; auto. now apply (first_exact t Ht).
    + intros [Ha H]. now apply (first_exact t Ht).
  - intros A a. split; [intros H; assert (term rules a) as Ha by exact (O2 A a H)|intros [Ha H]]; [split; auto|]; now apply F.
Qed.

Lemma empty_always_panics : (exists A i, prod_at rules A i []) -> forall fuel, tabler_new dbg fuel g = Panic P_assert.
Proof. intros (A & i & H). apply empty_panics. intros N. exact (N _ _ _ H eq_refl). Qed.

Lemma only_when t : tabler_makes dbg g t -> dbg = true \/ (term rules eof /\ no_left_cycle rules /\ no_right_cycle rules) -> only_terminals t.
Proof.
  intros Ht [E|(He & HL & HR)]; [now apply debug_only|].
  assert (noempty rules) as NE by (eapply tf_noempty, tmakes_facts; eauto).
  destruct (tabler_total_only NE He HL HR) as (t' & Ht' & Ho). now rewrite (tmakes_unique _ _ _ _ Ht Ht').
Qed.

(** *** soundness and completeness *)
Lemma sound k t : makes k dbg g t -> term rules eof -> start_fresh rules start ->
  (forall M (maps : reductmap T M) input m, parses t input maps (POk m) -> sentence rules start (map tk_ty input)) /\
  (forall input, validates t input true -> sentence rules start (map tk_ty input)).
Proof.
  intros Hm He Hf. assert (forall M (maps : reductmap T M) input m, parses t input maps (POk m) -> sentence rules start (map tk_ty input)) as H.
  { intros. eapply parses_sound; eauto. }
  split; auto. intros input Hv. apply (validates_parses _ _ _ _ _ W Hg _ _ _ _ Hm) in Hv as (r & Hr & E). destruct r as [m|e]; [|discriminate]. eauto.
Qed.

Lemma sound_eof t : makes CLR dbg g t -> term rules eof -> (forall A i rhs, prod_at rules A i rhs -> ~ In eof rhs) ->
  (forall M (maps : reductmap T M) input m, parses t input maps (POk m) -> sentence rules start (map tk_ty input)) /\
  (forall input, validates t input true -> sentence rules start (map tk_ty input)).
Proof.
  intros Hm He Hf. assert (forall M (maps : reductmap T M) input m, parses t input maps (POk m) -> sentence rules start (map tk_ty input)) as H.
  { intros. eapply clr_sound_eof; eauto. }
  split; auto. intros input Hv. apply (validates_parses _ _ _ _ _ W Hg _ _ _ _ Hm) in Hv as (r & Hr & E). destruct r as [m|e]; [|discriminate]. eauto.
Qed.

Lemma complete k t : makes k dbg g t -> k <> LALR \/ carries t -> term rules eof -> start_fresh rules start -> dbg = true \/ single_start rules start ->
  (forall M (maps : reductmap T M) input, covers rules maps -> sentence rules start (map tk_ty input) ->
     (exists m, parses t input maps (POk m)) \/ (exists a b, parses t input maps (PErr (ConflictErr a b)))) /\
  (forall M (maps : reductmap T M) input, covers rules maps -> conflicts (t_actions t) = [] -> sentence rules start (map tk_ty input) ->
     exists m, parses t input maps (POk m)) /\
  (forall input, conflicts (t_actions t) = [] -> sentence rules start (map tk_ty input) -> validates t input true).
Proof.
  intros Hm Hk He Hf Hs0. assert (single_start rules start) as Hs by (destruct Hs0; eauto using debug_single).
  assert (forall M (maps : reductmap T M) input, covers rules maps -> conflicts (t_actions t) = [] -> sentence rules start (map tk_ty input) ->
     exists m, parses t input maps (POk m)) as H by (intros; eapply clean_parses; eauto).
  split; [intros; eapply sentence_parses; eauto|]. split; auto.
  intros input Hc Hi. apply (validates_parses _ _ _ _ _ W Hg _ _ _ _ Hm). destruct (H _ (empty_map g) input) as (m & E); auto.
  - eapply empty_covers; eauto.
  - eauto.
Qed.

Lemma complete_any k t : makes k dbg g t -> k <> LALR \/ carries t -> term rules eof -> dbg = true \/ single_start rules start ->
  forall M (maps : reductmap T M) input, covers rules maps -> sentence rules start (map tk_ty input) ->
  (exists m, parses t input maps (POk m)) \/ (exists a b, parses t input maps (PErr (ConflictErr a b))) \/ parses t input maps (PErr IncompleteExec).
Proof.
  intros Hm Hk He Hs M maps input Hc. assert (single_start rules start) as H1 by (destruct Hs as [->|Hs]; auto; eapply debug_single; eauto).
  eapply sentence_parses_any; eauto.
Qed.

(** *** C17 *)
Lemma start_last k t : makes k dbg g t -> term rules eof -> start_fresh rules start ->
  forall M (maps : reductmap T M) fs f, bm_get start maps = Some fs -> nth_error fs 0 = Some f ->
  forall input m, parses t input maps (POk m) ->
  exists its it, evals rules maps start input (mkTok (f (its ++ [it])) start) /\ m = tk_item it.
Proof.
  intros Hm He Hf M maps fs f H1 H2 input m Hp. destruct (parses_evals _ _ _ _ _ W Hg maps _ _ Hm He _ _ Hf Hp) as (rhs & its & it & H3 & H4 & ->).
  exists its, it. split; auto. econstructor; eauto.
Qed.

Lemma start_last_value k t : makes k dbg g t -> term rules eof -> start_fresh rules start ->
  forall M (maps : reductmap T M) fs f, bm_get start maps = Some fs -> nth_error fs 0 = Some f -> (forall its it, f (its ++ [it]) = tk_item it) ->
  forall input m, parses t input maps (POk m) -> evals rules maps start input (mkTok m start).
Proof.
  intros Hm He Hf M maps fs f H1 H2 H3 input m Hp. destruct (start_last _ _ Hm He Hf _ _ _ _ H1 H2 _ _ Hp) as (its & it & H4 & ->). now rewrite H3 in H4.
Qed.

(** *** C44, C45 *)
Lemma exact_language k t : makes k dbg g t -> k <> LALR \/ carries t -> term rules eof -> start_fresh rules start -> dbg = true \/ single_start rules start ->
  conflicts (t_actions t) = [] ->
  (forall M (maps : reductmap T M) input, covers rules maps -> ((exists m, parses t input maps (POk m)) <-> sentence rules start (map tk_ty input))) /\
  (forall input, validates t input true <-> sentence rules start (map tk_ty input)).
Proof.
  intros Hm Hk He Hf Hs Hc. destruct (sound _ _ Hm He Hf) as [S1 S2]. destruct (complete _ _ Hm Hk He Hf Hs) as (_ & C1 & C2). split.
  - intros M maps input Hco. split; [intros (m & Hp); eauto|auto].
  - intros input. split; auto.
Qed.

Lemma exact_value k t : makes k dbg g t -> k <> LALR \/ carries t -> term rules eof -> start_fresh rules start ->
  conflicts (t_actions t) = [] -> forall M (maps : reductmap T M) input m,
  parses t input maps (POk m) <-> exists rhs its it, prod_at rules start 0 rhs /\ evals_seq rules maps rhs input (its ++ [it]) /\ m = tk_item it.
Proof.
  intros Hm Hk He Hf Hc M maps input m. split.
  - intros Hp. eapply parses_evals; eauto.
  - intros (rhs & its & it & H1 & H2 & ->). eapply evals_parses; eauto.
Qed.

(** *** termination *)
Lemma clr_total t : makes CLR dbg g t -> term rules eof ->
  (forall M (maps : reductmap T M) input, covers rules maps -> Forall (term rules) (map tk_ty input) -> exists r, parses t input maps r) /\
  (forall input, Forall (term rules) (map tk_ty input) -> exists b, validates t input b).
Proof.
  intros Hm He. assert (forall M (maps : reductmap T M) input, covers rules maps -> Forall (term rules) (map tk_ty input) -> exists r, parses t input maps r) as H.
  { intros. eapply clr_returns; eauto. }
  split; auto. intros input Hi. destruct (H _ (empty_map g) input) as (r & Hr); auto; [eapply empty_covers; eauto|].
  eexists. apply (validates_parses _ _ _ _ _ W Hg _ _ _ _ Hm). eauto.
Qed.

Lemma acyclic_total k t : makes k dbg g t -> term rules eof -> no_unit_cycle rules ->
  (forall M (maps : reductmap T M) input, covers rules maps -> Forall (term rules) (map tk_ty input) -> exists r, parses t input maps r) /\
  (forall input, Forall (term rules) (map tk_ty input) -> exists b, validates t input b).
Proof.
  intros Hm He Hu. assert (forall M (maps : reductmap T M) input, covers rules maps -> Forall (term rules) (map tk_ty input) -> exists r, parses t input maps r) as H.
  { intros. eapply acyclic_returns; eauto. }
  split; auto. intros input Hi. destruct (H _ (empty_map g) input) as (r & Hr); auto; [eapply empty_covers; eauto|].
  eexists. apply (validates_parses _ _ _ _ _ W Hg _ _ _ _ Hm). eauto.
Qed.

(** *** C21 *)
Lemma no_internal k t : makes k dbg g t -> term rules eof ->
  forall M (maps : reductmap T M) input, dbg = true \/ only_terminals t \/ Forall (term rules) (map tk_ty input) ->
  (covers rules maps -> forall fuel p, parser_parse fuel t input maps <> Panic p) /\
  (forall rest e, fails t input maps rest e ->
     e <> StateNotSpecified /\ e <> MissingPreviousState /\
     (e = UnexpectedEof -> exists A i rhs, prod_at rules A i rhs /\ In eof rhs)).
Proof.
  intros Hm He M maps input Ho. split.
  - intros Hc fuel p. eapply never_panics_any; eauto.
  - intros rest e Hf. pose proof (benign_any _ _ _ _ _ W Hg _ _ _ He Hm _ _ _ Ho Hf) as B.
    destruct e; try contradiction; (split; [discriminate|]); (split; [discriminate|]); try discriminate. intros _. apply B.
Qed.

(** *** C24 *)
Lemma expected_clr t : makes CLR dbg g t -> term rules eof -> dbg = true \/ single_start rules start ->
  forall M (maps : reductmap T M) used rest x es, M -> covers rules maps -> Forall (term rules) (map tk_ty (used ++ rest)) ->
  fails t (used ++ rest) maps rest (UnexpectedToken x es) ->
  (forall a v, sentence rules start (map tk_ty used ++ a :: v) -> In a es) /\
  (sentence rules start (map tk_ty used) -> In eof es) /\ sorted es /\ ~ In x es.
Proof.
  intros Hm He Hs0 M maps used rest x es m0 Hc Hi HF. assert (single_start rules start) as Hs by (destruct Hs0; eauto using debug_single).
  destruct (clr_expected _ _ _ _ _ W Hg maps CLR t Hm He Hc (used ++ rest) rest used x es m0) as [H1 H2]; auto.
  split; auto. split; auto. pose proof (benign_run _ _ _ _ _ W Hg maps _ _ Hm He _ _ _ Hi HF) as B. cbn beta iota in B. tauto.
Qed.

Lemma expected_sorted k t : makes k dbg g t -> term rules eof ->
  forall M (maps : reductmap T M) used rest x es, Forall (term rules) (map tk_ty (used ++ rest)) ->
  fails t (used ++ rest) maps rest (UnexpectedToken x es) ->
  x = match rest with [] => eof | tok :: _ => tk_ty tok end /\ sorted es /\ ~ In x es.
Proof.
  intros Hm He M maps used rest x es Hi HF. pose proof (benign_run _ _ _ _ _ W Hg maps _ _ Hm He _ _ _ Hi HF) as B. cbn beta iota in B. tauto.
Qed.

(** *** C22, C23, C24, C37: no assumption on the unread tokens *)
Lemma viable_prefix k t : makes k dbg g t -> term rules eof -> productive rules ->
  forall M (maps : reductmap T M) used rest,
  (forall d, reaches t (used ++ rest) maps d -> d_buffer d = rest -> viable rules start (map tk_ty used)) /\
  (forall e, fails t (used ++ rest) maps rest e -> viable rules start (map tk_ty used)).
Proof.
  intros Hm He Hp M maps used rest. split.
  - intros d Hd Eb. eapply (reaches_viable _ _ _ _ _ W Hg maps k t); eauto. now rewrite Eb.
  - intros e Hf. eapply (fails_viable _ _ _ _ _ W Hg maps k t); eauto.
Qed.

Lemma fails_used_term k t {M} (maps : reductmap T M) used rest e : makes k dbg g t -> term rules eof ->
  fails t (used ++ rest) maps rest e -> Forall (term rules) (map tk_ty used).
Proof.
  intros Hm He Hf. destruct (fails_reaches _ _ _ _ _ W Hg maps _ _ Hm _ _ _ Hf) as (d & Hd & Eb).
  eapply (reaches_used_term _ _ _ _ _ W Hg maps k t); eauto. now rewrite Eb.
Qed.

Lemma unexpected_general k t : makes k dbg g t -> k <> LALR \/ carries t -> term rules eof -> dbg = true \/ single_start rules start ->
  forall M (maps : reductmap T M) used rest x es, covers rules maps -> fails t (used ++ rest) maps rest (UnexpectedToken x es) ->
  match rest with
  | [] => ~ sentence rules start (map tk_ty used)
  | tok :: _ => forall v, ~ sentence rules start (map tk_ty used ++ tk_ty tok :: v)
  end.
Proof.
  intros Hm Hk He Hs0 M maps used rest x es Hc Hf. assert (single_start rules start) as Hs by (destruct Hs0; eauto using debug_single).
  pose proof (fails_used_term _ _ _ _ _ _ Hm He Hf) as Hu.
  destruct rest as [|tok rest].
  - rewrite app_nil_r in Hf. eapply (unexpected_right _ _ _ _ _ W Hg maps k t Hm He Hc used [] used); eauto. now rewrite app_nil_r.
  - intros v Hv. assert (term rules (tk_ty tok)) as Ht. { destruct Hv as [_ Hv]. apply Forall_app in Hv as [_ Hv]. now inversion Hv. }
    assert (fails t (used ++ [tok]) maps [tok] (UnexpectedToken x es)) as Hf2.
    { eapply (fails_local _ _ _ _ _ W Hg maps k t Hm (used ++ tok :: rest) (used ++ [tok]) used (tok :: rest) [tok]); eauto. }
    assert (Forall (term rules) (map tk_ty (used ++ [tok]))) as Hall. { rewrite map_app. apply Forall_app. split; auto. repeat constructor; auto. }
    destruct (unexpected_right _ _ _ _ _ W Hg maps k t Hm He Hc (used ++ [tok]) [tok] used x es Hk Hs Hall Hf2 eq_refl) as [_ N].
    destruct (N _ _ eq_refl) as [-> N2]. apply N2. eauto.
Qed.

Lemma expected_general t : makes CLR dbg g t -> term rules eof -> dbg = true \/ single_start rules start ->
  forall M (maps : reductmap T M) used rest x es, M -> covers rules maps ->
  match rest with [] => True | tok :: _ => term rules (tk_ty tok) end ->
  fails t (used ++ rest) maps rest (UnexpectedToken x es) ->
  (forall a v, sentence rules start (map tk_ty used ++ a :: v) -> In a es) /\
  (sentence rules start (map tk_ty used) -> In eof es).
Proof.
  intros Hm He Hs0 M maps used rest x es m0 Hc Ht Hf. pose proof (fails_used_term _ _ _ _ _ _ Hm He Hf) as Hu.
  destruct rest as [|tok rest].
  - edestruct (expected_clr t Hm He Hs0 M maps used []) as (H1 & H2 & _); eauto. now rewrite app_nil_r.
  - edestruct (expected_clr t Hm He Hs0 M maps used [tok]) as (H1 & H2 & _); eauto.
    + rewrite map_app. apply Forall_app. split; auto. repeat constructor; auto.
    + eapply (fails_local _ _ _ _ _ W Hg maps _ t Hm (used ++ tok :: rest) (used ++ [tok]) used (tok :: rest) [tok]); eauto.
Qed.

Lemma reduces_general t : makes CLR dbg g t -> term rules eof -> productive rules ->
  forall M (maps : reductmap T M) used rest d row A pr, reaches t (used ++ rest) maps d -> d_buffer d = rest ->
  term rules (lookahead d) -> nth_error (t_actions t) (d_top d) = Some row -> bm_get (lookahead d) row = Some (Reduce A pr) ->
  (lookahead d = eof /\ sentence rules start (map tk_ty used)) \/ viable rules start (map tk_ty used ++ [lookahead d]).
Proof.
  intros Hm He Hp M maps used rest d row A pr Hr Eb Hl E1 E2.
  assert (Forall (term rules) (map tk_ty used)) as Hu. { eapply (reaches_used_term _ _ _ _ _ W Hg maps _ t); eauto. now rewrite Eb. }
  destruct rest as [|tok rest].
  - eapply (clr_reduces_legally _ _ _ _ _ W Hg maps CLR t Hm He (used ++ []) d used); eauto; [|now rewrite Eb]. now rewrite app_nil_r.
  - assert (reaches t (used ++ [tok]) maps (with_rest d [tok])) as Hr2.
    { eapply (reaches_local _ _ _ _ _ W Hg maps _ t Hm used (tok :: rest) [tok]); eauto. }
    assert (lookahead (with_rest d [tok]) = lookahead d) as El. { unfold lookahead. simpl. now rewrite Eb. }
    assert (term rules (tk_ty tok)) as Ht. { unfold lookahead in Hl. now rewrite Eb in Hl. }
    rewrite <- El in *.
    eapply (clr_reduces_legally _ _ _ _ _ W Hg maps CLR t Hm He (used ++ [tok]) (with_rest d [tok]) used); eauto.
    rewrite map_app. apply Forall_app. split; auto. repeat constructor; auto.
Qed.

(** *** C32 *)
Lemma agree_slr ts tc : makes SLR dbg g ts -> makes CLR dbg g tc -> term rules eof -> start_fresh rules start ->
  dbg = true \/ only_terminals ts -> conflicts (t_actions ts) = [] ->
  (forall M (maps : reductmap T M) input m, parses ts input maps (POk m) <-> parses tc input maps (POk m)) /\
  (forall input, validates ts input true <-> validates tc input true).
Proof.
  intros Hm Hm' He Hf Ho Hc. assert (forall M (maps : reductmap T M) input m, parses ts input maps (POk m) <-> parses tc input maps (POk m)) as H.
  { intros. eapply slr_clr_agree; eauto. }
  split; auto. intros input. rewrite (validates_parses _ _ _ _ _ W Hg _ _ _ _ Hm), (validates_parses _ _ _ _ _ W Hg _ _ _ _ Hm').
  split; intros (r & Hr & E); (destruct r as [m|e]; [|discriminate]); apply H in Hr; eauto.
Qed.

(** *** C40 *)
Lemma no_panic_states k t : makes k dbg g t -> length (t_actions t) = length (t_states t).
Proof. intros Hm. destruct (table_exact _ _ _ _ _ W Hg _ _ Hm) as (go & _ & E & _). exact E. Qed.
End Export.

Lemma follow_debug {T : Type} {OT : Ord T} (start eof : T) (rules : rulemap T) (g : grammar T) :
  wf_rules rules -> grammar_new true start rules eof = Val g -> term rules eof ->
  forall t, tabler_makes true g t ->
  (forall A a, (exists s, bm_get A (t_follow t) = Some s /\ In a s) <-> term rules a /\ follow_rules rules start eof A a) /\
  (reachable rules start -> forall A a, nonterm rules A ->
     ((exists s, bm_get A (t_follow t) = Some s /\ In a s) <-> follow_deriv rules start eof A a)).
Proof.
  intros W Hg He t Ht. destruct (follow_exact _ _ _ _ _ W Hg t Ht He (or_introl eq_refl)) as [F1 F2].
  pose proof (debug_only _ _ _ _ _ W Hg t eq_refl Ht) as Ho. apply (only_tin _ _ _ _ _ Hg) in Ho as [_ O2]; [|eapply tf_grammar, tmakes_facts; eauto].
  split.
  - intros A a. split; [intros H; assert (term rules a) as Ha by exact (O2 A a H)|intros [Ha H]]; [split; auto|]; now apply F1.
  - intros R A a HA. split; [intros H; assert (term rules a) as Ha by exact (O2 A a H)|intros H; assert (term rules a) as Ha by apply H]; now apply (F2 R).
Qed.

Lemma merged_exact {T : Type} {OT : Ord T} (s : state T) :
  sorted (merged s) /\
  (forall p q, In p (merged s) -> In q (merged s) -> p_rule p = p_rule q -> p_seq p = p_seq q -> p_point p = p_point q -> p = q) /\
  (forall A pr i, (exists l, In (mkPos A pr i l) (merged s)) <-> (exists l, In (mkPos A pr i l) s)) /\
  (forall A pr i l x, In (mkPos A pr i l) (merged s) -> (In x l <-> exists l', In (mkPos A pr i l') s /\ In x l')) /\
  ((forall p, In p s -> sorted (p_look p)) -> forall p, In p (merged s) -> sorted (p_look p)).
Proof.
  destruct (merged_spec s) as [H1 H2 H3 H4 H5]. split; auto. split; [|split; [|split; auto]].
  - intros [A pr i l] [A' pr' i' l'] Hp Hq; simpl. intros -> -> ->. now apply H2.
  - intros A pr i. specialize (H3 (mkPos A pr i [])). unfold no_look in H3. split; intros (l & Hl).
    + destruct (proj1 H3) as ([A' pr' i' l'] & Hp & E). { eexists. split; [exact Hl|reflexivity]. } injection E as -> -> ->. eauto.
    + destruct (proj2 H3) as ([A' pr' i' l'] & Hp & E). { eexists. split; [exact Hl|reflexivity]. } injection E as -> -> ->. eauto.
  - intros A pr i l x Hp. rewrite (H4 _ x Hp). unfold no_look. simpl. split.
    + intros ([A' pr' i' l'] & Hq & E & Hx). injection E as -> -> ->. eauto.
    + intros (l' & Hq & Hx). eexists. split; [exact Hq|]. auto.
Qed.

Lemma deterministic {T : Type} {OT : Ord T} (dbg : bool) (g : grammar T) :
  (forall t1 t2, tabler_makes dbg g t1 -> tabler_makes dbg g t2 -> t1 = t2) /\
  (forall k t1 t2, makes k dbg g t1 -> makes k dbg g t2 -> t1 = t2) /\
  (forall t M (input : list (token T M)) maps r1 r2, parses t input maps r1 -> parses t input maps r2 -> r1 = r2).
Proof.
  split; [apply tmakes_unique|]. split; [apply makes_unique|].
  intros t M input maps r1 r2 (n & H1) (m & H2). eapply (rle_fun (fun n => parser_parse n t input maps)); eauto. intros. now apply parse_rle.
Qed.

Lemma debug_release {T : Type} {OT : Ord T} (start eof : T) (rules : rulemap T) (g : grammar T) :
  grammar_new true start rules eof = Val g -> grammar_new false start rules eof = Val g /\
  (forall t, tabler_makes true g t -> tabler_makes false g t) /\ (forall k t, makes k true g t -> makes k false g t).
Proof.
  intros Hg. split; [now apply grammar_vle|]. split; [|apply makes_debug].
  intros t (n & E). exists n. now apply tabler_vle.
Qed.

Lemma clean_unamb_debug {T : Type} {OT : Ord T} (start eof : T) (rules : rulemap T) (g : grammar T) :
  wf_rules rules -> grammar_new true start rules eof = Val g ->
  forall k t, makes k true g t -> k <> LALR \/ carries t -> term rules eof -> start_fresh rules start -> conflicts (t_actions t) = [] ->
  forall w t1 t2, tree_of rules start w t1 -> tree_of rules start w t2 -> t1 = t2.
Proof. intros W Hg k t Hm Hk He Hf Hc w t1 t2. eapply clean_unamb; eauto. eapply debug_single; eauto. Qed.

Lemma clr_lalr : CLR <> LALR. Proof. discriminate. Qed.
Lemma slr_lalr : SLR <> LALR. Proof. discriminate. Qed.
Lemma slr_clr : SLR <> CLR. Proof. discriminate. Qed.
Lemma lalr_clr : LALR <> CLR. Proof. discriminate. Qed.
