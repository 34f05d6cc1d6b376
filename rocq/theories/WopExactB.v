(** Exactly when the names of an alternative, if they differ, are bound to the tokens expected. *)
From Coq Require Import List Bool Arith Lia String Permutation.
From Verif Require Import BTree Model Strings Base SpecP Wop WopSpec WopP WopProc WopParse WopDump WopExport WopText WopTextP WopShape WopExactSpec WopExact WopExactT.
Import ListNotations.
Local Open Scope list_scope.
Local Open Scope nat_scope.

Lemma env_spans ps : forall b x, In b (both ps) -> In x (snd (snd b)) -> In (fst x) (pipe_spans ps).
Proof.
  assert (C : forall p ps, (forall b x, In b (both_item p) -> In x (snd (snd b)) -> In (fst x) (alias_spans p)) -> (forall b x, In b (both ps) -> In x (snd (snd b)) -> In (fst x) (pipe_spans ps)) ->
    forall b x, In b (both (p :: ps)) -> In x (snd (snd b)) -> In (fst x) (pipe_spans (p :: ps))).
  { intros p qs H1 H2 y x Hy Hx. apply both_inv in Hy as (b & b' & Hb & Hb' & ->). cbn [bo_app snd run_app] in Hx. unfold pipe_spans. cbn [flat_map]. apply in_app_iff. apply in_app_iff in Hx as [Hx|Hx]; [left; eauto|right]. apply in_shift in Hx as (z & Hz & ->). exact (H2 b' z Hb' Hz). }
  induction ps as [|s' o al c ps IH|vs o al c ps Hv IH] using pipe_ind; [intros b x [<-|[]]; easy| |]; (apply C; [|exact IH]); intros b x Hb Hx.
  - cbn [both_item] in Hb. destruct Hb as [<-|Hb]; [|destruct o; [|easy]; destruct Hb as [<-|[]]; easy]. cbn [snd] in Hx. destruct al as [s|]; [|easy]. destruct Hx as [<-|[]]. now left.
  - rewrite alias_spans_group. apply in_app_iff. apply both_group_inv in Hb as [(v & b0 & Hiv & Hb & ->)|[-> ->]]; [|easy]. cbn [bo_kept snd] in Hx. apply in_app_iff in Hx as [Hx|Hx]; [left; destruct al as [s|]; [|easy]; destruct Hx as [<-|[]]; now left|].
    right. apply in_flat_map. exists v. split; [exact Hiv|]. exact (Hv v Hiv b0 x Hb Hx).
Qed.
Lemma item_env_spans p b x : In b (both_item p) -> In x (snd (snd b)) -> In (fst x) (alias_spans p).
Proof.
  intros Hb Hx. pose proof (env_spans [p] (bo_app b bo_nil) x) as H. cbn [bo_app snd run_app bo_nil] in H. unfold pipe_spans in H. cbn [flat_map] in H. rewrite !app_nil_r in H. apply H; [apply both_cons; [exact Hb|now left]|exact Hx].
Qed.
Lemma item_both_fst p b : In b (both_item p) -> fst (fst b) = fst (snd b).
Proof.
  intros Hb. assert (H : In (bo_app b bo_nil) (both [p])) by (apply both_cons; [exact Hb|now left]). apply both_fst in H. cbn [bo_app fst snd sh_app run_app bo_nil] in H. now rewrite !app_nil_r in H.
Qed.

Section B.
Variable text : span -> string.
Notation tx a := (text (a_alias a)).

(** the statement of [a] in the production [b] starting at [n] reads what [a] stands for *)
Definition correct (b : bo) (n : nat) (a : item_alias) : Prop :=
  exists i f, place text (tx a) (shift n (snd (snd b))) = Some (i, f) /\ forall fa, a_final a = Some fa -> exists fe, f = Some fe /\ fa - a_index a = fe - i.
Definition okay (b : bo) (n : nat) (a : item_alias) : Prop := a_optional a = Some false \/ correct b n a.

Lemma place_skip n e e' : (forall x, In x e -> text (fst x) <> n) -> place text n (e ++ e') = place text n e'.
Proof. intros H. now rewrite place_app, place_none. Qed.
Lemma place_stop n e e' : (forall x, In x e' -> text (fst x) <> n) -> place text n (e ++ e') = place text n e.
Proof. intros H. rewrite place_app. destruct (place text n e); [reflexivity|]. now rewrite place_none. Qed.
Lemma correct_ext b n a b' n' a' : place text (tx a) (shift n (snd (snd b))) = place text (tx a') (shift n' (snd (snd b'))) -> a_final a = a_final a' -> a_index a = a_index a' -> correct b n a -> correct b' n' a'.
Proof. intros E E1 E2 (i & f & H1 & H2). exists i, f. rewrite <- E, <- E1, <- E2. auto. Qed.

Lemma okay_cons p ps n : NoDup (pipe_names text (p :: ps)) -> filled p = true -> forallb filled ps = true -> (forall b, In b (both (p :: ps)) -> forall a, In a (snd (fst b) n) -> okay b n a) ->
  (forall b, In b (both_item p) -> forall a, In a (snd (fst b) n) -> okay b n a) /\ exists m, forall b, In b (both ps) -> forall a, In a (snd (fst b) m) -> okay b m a.
Proof.
  intros N Hp Hf H. rewrite pipe_names_cons in N. pose proof (NoDup_map_inv _ _ (NoDup_app_l _ _ N)) as S1. pose proof (NoDup_map_inv _ _ (NoDup_app_r _ _ N)) as S2. split.
  - intros b Hb a Ha. destruct (some_of _ (both_nonempty _ Hf)) as (b' & Hb'). destruct (H _ (both_cons p ps b b' Hb Hb') a) as [E|E]; [apply in_bo_app; now left|now left|right].
    eapply correct_ext; [|reflexivity|reflexivity|exact E]. cbn [bo_app snd run_app]. rewrite shift_app. apply place_stop. intros x Hx F. rewrite shift_shift in Hx. apply in_shift in Hx as (z & Hz & Ez). rewrite Ez in F.
    apply (NoDup_app_disj _ _ (tx a) N); [|rewrite <- F; apply in_map; exact (env_spans ps b' z Hb' Hz)]. apply in_map. apply (Permutation_in _ (item_both_spans p b n S1 Hb)). now apply in_map.
  - destruct (some_of _ (item_nonempty _ Hp)) as (b & Hb). exists (n + List.length (fst (fst b))). intros b' Hb' a Ha. destruct (H _ (both_cons p ps b b' Hb Hb') a) as [E|E]; [apply in_bo_app; now right|now left|right].
    eapply correct_ext; [|reflexivity|reflexivity|exact E]. cbn [bo_app snd run_app]. rewrite shift_app, shift_shift, <- (item_both_fst p b Hb). apply place_skip. intros x Hx F. apply in_shift in Hx as (z & Hz & Ez). rewrite Ez in F.
    apply (NoDup_app_disj _ _ (tx a) N); [rewrite <- F; apply in_map; exact (item_env_spans p b z Hb Hz)|]. apply in_map. apply (Permutation_in _ (both_spans ps b' (n + List.length (fst (fst b))) S2 Hb')). now apply in_map.
Qed.
Lemma okay_group vs o al c n : NoDup (item_names text (PGroup vs o al c)) -> (forall b, In b (both_item (PGroup vs o al c)) -> forall a, In a (snd (fst b) n) -> okay b n a) ->
  forall v, In v vs -> (forall b, In b (both (fst v)) -> forall a, In a (snd (fst b) n) -> correct b n a) /\ (forall s b, al = Some s -> In b (both (fst v)) -> List.length (fst (snd b)) = List.length (fst v)).
Proof.
  intros N H v Hv. unfold item_names, names in N. rewrite alias_spans_group, map_app in N. pose proof (NoDup_map_inv _ _ (NoDup_app_r _ _ N)) as Ni. fold (inner vs) in N, Ni. split.
  - intros b Hb a Ha. destruct (H _ (both_group_kept vs o al c v b Hv Hb) (set_optional (Some true) a)) as [E|E]; [apply in_kept; right; apply in_fill; left; eauto|discriminate|].
    eapply correct_ext; [|reflexivity|reflexivity|exact E]. cbn [bo_kept snd set_optional a_alias]. rewrite shift_app. apply place_skip. intros x Hx F. destruct al as [s|]; [|easy]. cbn [at_own shift map fst] in Hx. destruct Hx as [<-|[]]. cbn [fst] in F.
    apply (NoDup_app_disj _ _ (text s) N); [now left|]. rewrite F. apply in_map. apply in_inner. exists v. split; [exact Hv|]. apply (Permutation_in _ (both_spans (fst v) b n (NoDup_inner vs v Ni Hv) Hb)). now apply in_map.
  - intros s b -> Hb. destruct (H _ (both_group_kept vs o (Some s) c v b Hv Hb) (mkAlias s (if o then Some true else None) n (Some (n + List.length (fst v))) true)) as [E|(i & f & E1 & E2)].
    + apply in_kept. left. apply in_tail. eauto.
    + destruct o; discriminate.
    + cbn [bo_kept snd at_own app shift map fst a_alias place option_map] in E1. rewrite String.eqb_refl in E1. injection E1 as <- <-. destruct (E2 _ eq_refl) as (fe & [= <-] & E3). cbn [a_index] in E3. lia.
Qed.

Lemma distinct_names ps : NoDup (pipe_names text ps) -> distinct text ps.
Proof.
  unfold distinct. induction ps as [|p ps IH]; intros N; [constructor|]. rewrite pipe_names_cons in N. constructor; [|apply IH; now apply NoDup_app_r in N].
  apply Forall_forall. intros q Hq n Hn F. apply (NoDup_app_disj _ _ n N Hn). unfold item_names, names in F. apply in_map_iff in F as (s & <- & Hs). apply in_map. unfold pipe_spans. apply in_flat_map. eauto.
Qed.
Lemma okay_good ps : forall n, forallb filled ps = true -> NoDup (pipe_names text ps) -> (forall b, In b (both ps) -> forall a, In a (snd (fst b) n) -> okay b n a) -> Forall (good_item text) ps.
Proof.
  induction ps as [|s' o al c ps IH|vs o al c ps Hv IH] using pipe_ind; intros n Hf N H; [constructor| |]; cbn [forallb] in Hf; apply andb_true_iff in Hf as [Hp Hf]; destruct (okay_cons _ _ _ N Hp Hf H) as [H1 (m & H2)]; rewrite pipe_names_cons in N; pose proof (NoDup_app_r _ _ N) as N2; (constructor; [|exact (IH m Hf N2 H2)]); [constructor|].
  apply NoDup_app_l in N. pose proof (okay_group _ _ _ _ _ N H1) as Hg. cbn [filled] in Hp. apply andb_true_iff in Hp as [_ Hp]. rewrite forallb_forall in Hp.
  pose proof N as N1. unfold item_names, names in N1. rewrite alias_spans_group, map_app in N1. pose proof (NoDup_app_r _ _ N1) as N3. fold (inner vs) in N3, N1. pose proof (NoDup_map_inv _ _ N3) as Ni.
  assert (Nv : forall v, In v vs -> NoDup (pipe_names text (fst v))).
  { intros v Hiv. unfold pipe_names, names. clear - N3 Hiv. unfold inner in N3. induction vs as [|w vs IH]; [easy|]. cbn [flat_map] in N3. rewrite map_app in N3. destruct Hiv as [->|Hiv]; [exact (NoDup_app_l _ _ N3)|]. apply IH; auto. now apply NoDup_app_r in N3. }
  constructor.
  - intros v Hiv. split; [|exact (distinct_names _ (Nv v Hiv))]. apply (Hv v Hiv n (Hp v Hiv) (Nv v Hiv)). intros b Hb a Ha. right. exact (proj1 (Hg v Hiv) b Hb a Ha).
  - intros v k w e Hiv Hk Hr. unfold pipe_names, names in Hk. apply in_map_iff in Hk as (s & <- & Hs). rewrite <- (proj2 (both_proj (fst v))) in Hr. apply in_map_iff in Hr as (b & Eb & Hb).
    apply (Permutation_in _ (Permutation_sym (both_spans (fst v) b n (NoDup_inner vs v Ni Hiv) Hb))) in Hs. apply in_map_iff in Hs as (a & <- & Ha). destruct (proj1 (Hg v Hiv) b Hb a Ha) as (i & f & E & _). rewrite Eb in E. cbn [snd] in E. rewrite place_shift in E. intros F. rewrite F in E. discriminate.
  - intros v v' s s' Hiv Hiv' Hs Hs' E. left. apply (NoDup_inj text (inner vs)); auto; apply in_inner; eauto.
  - intros b v w -> Hiv Hw. rewrite <- runs_expand, <- (proj2 (both_proj (fst v))), map_map in Hw. apply in_map_iff in Hw as (x & <- & Hx). exact (proj2 (Hg v Hiv) b x eq_refl Hx).
  - intros b v -> Hiv F. apply (NoDup_app_disj _ _ (text b) N1); [now left|]. unfold pipe_names, names in F. apply in_map_iff in F as (s & Es & Hs). rewrite <- Es. apply in_map. apply in_inner. eauto.
Qed.

(** one statement *)
Lemma run_correct ps b a : In b (both ps) -> fst (snd b) <> [] -> run_binding (seq 0 (List.length (fst (snd b)))) (write_alias text a) = expected text ps (seq 0 (List.length (fst (snd b)))) (snd (snd b)) (tx a) ->
  (exists v, run_binding (seq 0 (List.length (fst (snd b)))) (write_alias text a) = Val v) -> okay b 0 a.
Proof.
  intros Hb Hne E (v & Ev). assert (Hr : In (snd b) (runs ps)) by (rewrite <- (proj2 (both_proj ps)); now apply in_map). apply runs_range in Hr. set (N := List.length (fst (snd b))) in *.
  unfold okay, correct. rewrite shift_0. destruct (a_optional a) as [[|]|] eqn:Eo; [right|now left|right]; rewrite E in Ev; unfold expected in *; unfold run_binding, write_alias in E; cbn [bd_optional bd_index bd_final] in E; rewrite Eo in E;
    (destruct (place text (tx a) (snd (snd b))) as [[i f]|] eqn:Epl; [|unfold fetch in E; destruct (a_final a) as [fa|]; [destruct (_ && _)|destruct (nth_error _ (a_index a))]; discriminate]);
    exists i, f; (split; [reflexivity|]); intros fa Efa; rewrite Efa in E; unfold fetch in E; (destruct ((a_index a <=? fa) && (fa <=? List.length (seq 0 N))) eqn:Eb;
    [|destruct f; [discriminate|]; destruct (nth_error (seq 0 N) i); [discriminate|]; discriminate]); apply andb_true_iff in Eb as [B1 B2]; apply Nat.leb_le in B1, B2; rewrite seq_length in B2;
    apply WopProc.place_in in Epl as (s & Hs); apply Hr in Hs; cbn [snd] in Hs;
    (destruct f as [fe|]; [|destruct (nth_error (seq 0 N) i); [|discriminate]; cbn in E; destruct (existsb _ _); discriminate]); exists fe; (split; [reflexivity|]);
    cbn [bind] in E; destruct (existsb _ _); try discriminate; injection E as E; apply (f_equal (@List.length nat)) in E; rewrite !firstn_length, !skipn_length, seq_length in E; lia.
Qed.
End B.

Section F.
Variable text : span -> string.
Variable order : prod_build -> list prod_build -> list span -> list span.
Variable dbg : bool.
Hypothesis Ho : iterates order.

Theorem good_exact ts alt r0 bs0 c0 : emits text order dbg ts alt r0 bs0 c0 -> NoDup (pipe_names text (fst alt)) -> ~ In "toks"%string (pipe_names text (fst alt)) -> never_empty (fst alt) ->
  ((forall r bs c, emits text order dbg ts alt r bs c -> forall A (toks : list A), List.length toks = List.length (fst r) ->
      exists vals, run_all toks bs = Val vals /\ forall n, In n (pipe_names text (fst alt)) -> exists v, filter (fun x => String.eqb (fst x) n) vals = [(n, v)] /\ expected text (fst alt) toks (snd r) n = Val v)
    <-> good text (fst alt)).
Proof.
  intros He N Hk Hne. pose proof (emits_filled _ _ _ _ _ _ _ _ He) as Hf. split.
  - intros H. split; [|now apply distinct_names]. apply (okay_good text (fst alt) 0 Hf N). intros [x r] Hx a Ha. destruct (emits_all text order dbg Ho _ _ _ _ _ He N x r Hx) as (bs & c & He' & P).
    assert (Hr : fst r <> []). { apply Hne. apply expand_picks. rewrite <- runs_expand, <- (proj2 (both_proj (fst alt))), map_map. apply in_map_iff. exists (x, r). auto. }
    destruct (H r bs c He' nat (seq 0 (List.length (fst r))) (seq_length _ _)) as (vals & Ev & Hv).
    assert (Hb : In (write_alias text a) bs) by (apply (Permutation_in _ (Permutation_sym P)); now apply in_map).
    assert (Hn : forall b, In b bs -> In (bd_name b) (pipe_names text (fst alt))).
    { intros b Hib. apply (Permutation_in _ P) in Hib. apply in_map_iff in Hib as (a0 & <- & Ha0). change (bd_name (write_alias text a0)) with (text (a_alias a0)). apply in_map. apply (Permutation_in _ (both_spans (fst alt) (x, r) 0 (NoDup_map_inv _ _ N) Hx)). now apply in_map. }
    rewrite run_all_plain in Ev by (intros b Hib E; apply Hk; rewrite <- E; now apply Hn). apply mapM_val in Ev. destruct (Forall2_in_l_ex _ _ _ _ Ev Hb) as (y & Hy & E). apply bind_val in E as (v & E & Ey). injection Ey as <-.
    destruct (Hv _ (Hn _ Hb)) as (v' & Fv & Ex). assert (Hin : In (bd_name (write_alias text a), v) (filter (fun x => String.eqb (fst x) (bd_name (write_alias text a))) vals)) by (apply filter_In; split; [exact Hy|apply String.eqb_refl]).
    rewrite Fv in Hin. destruct Hin as [Hin|[]]. injection Hin as ->. apply (run_correct text (fst alt) (x, r) a Hx Hr); cbn [snd]; [|eauto]. rewrite E. symmetry. exact Ex.
  - intros Hg r bs c He' A toks Hl. assert (Hr : fst r <> []). { destruct (emits_both text order dbg Ho _ _ _ _ _ He' N) as (x & Hx & _). apply Hne. apply expand_picks. rewrite <- runs_expand, <- (proj2 (both_proj (fst alt))), map_map. apply in_map_iff. exists (x, r). auto. }
    destruct (emits_runs text order Ho dbg _ _ _ _ _ He' Hg Hr Hk A toks Hl) as (vals & E1 & _ & E2). eauto.
Qed.
End F.

Lemma never_empty_all ps : forallb (fun w => negb (List.length w =? 0)) (expand ps) = true -> never_empty ps.
Proof. intros H w Hw ->. apply expand_picks in Hw. rewrite forallb_forall in H. specialize (H _ Hw). discriminate. Qed.
