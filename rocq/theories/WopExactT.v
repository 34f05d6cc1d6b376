(** Exactly when the statements of an alternative whose names differ compile, and give every name one type. *)
From Coq Require Import List Bool Arith Lia String Permutation.
From Verif Require Import BTree Model Strings Base SpecP Wop WopSpec WopP WopProc WopParse WopDump WopExport WopShape WopExactSpec WopExact.
Import ListNotations.
Local Open Scope list_scope.
Local Open Scope nat_scope.

(** every group has an alternative *)
Fixpoint filled (p : pat) : bool :=
  match p with
  | PSym _ _ _ _ => true
  | PGroup vs _ _ _ => match vs with [] => false | _ => true end && forallb (fun v => forallb filled (fst v)) vs
  end.
Lemma rep_filled ps : forall gs, rep_pipe gs ps -> forallb filled ps = true.
Proof.
  induction ps as [|s o a c ps IH|vs o a c ps Hv IH] using pipe_ind; intros gs Hr; [reflexivity| |]; inversion Hr as [|g ? gs' ? Hg Hr']; subst; cbn [forallb]; rewrite (IH _ Hr'), andb_true_r; [reflexivity|].
  inversion Hg as [|? ? ? ? ? variants ? Ea Ht Ei Hne Fv]; subst. cbn [filled]. apply andb_true_iff. split; [now destruct vs|]. apply forallb_forall. intros v Hiv.
  destruct (Forall2_in_r_ex _ _ _ _ Fv Hiv) as (u & _ & _ & F). exact (Hv v Hiv _ F).
Qed.
Lemma both_nonempty ps : forallb filled ps = true -> both ps <> [].
Proof.
  assert (C : forall p ps, both_item p <> [] -> both ps <> [] -> both (p :: ps) <> []).
  { intros p qs H1 H2. cbn [both]. destruct (both_item p) as [|b l]; [easy|]. cbn [flat_map]. destruct (both qs) as [|b' l']; [easy|]. discriminate. }
  induction ps as [|s o a c ps IH|vs o a c ps Hv IH] using pipe_ind; cbn [forallb]; intros H; [discriminate| |]; apply andb_true_iff in H as [H1 H2]; apply C; auto; [discriminate|].
  rewrite both_group. cbn [filled] in H1. apply andb_true_iff in H1 as [H1 H3]. destruct vs as [|v vs]; [discriminate|]. cbn [forallb] in H3. apply andb_true_iff in H3 as [H3 _]. pose proof (Hv v (or_introl eq_refl) H3) as Hb.
  cbn [flat_map]. destruct (both (fst v)) as [|b l]; [easy|]. discriminate.
Qed.
Lemma item_nonempty p : filled p = true -> both_item p <> [].
Proof.
  intros H E. assert (N : both [p] <> []) by (apply both_nonempty; cbn [forallb]; now rewrite H). apply N. cbn [both]. now rewrite E.
Qed.
Lemma both_cons p ps b b' : In b (both_item p) -> In b' (both ps) -> In (bo_app b b') (both (p :: ps)).
Proof. intros H1 H2. cbn [both]. apply in_flat_map. exists b. split; [exact H1|now apply in_map]. Qed.
Lemma both_inv p ps x : In x (both (p :: ps)) -> exists b b', In b (both_item p) /\ In b' (both ps) /\ x = bo_app b b'.
Proof. cbn [both]. intros H. apply in_flat_map in H as (b & Hb & H). apply in_map_iff in H as (b' & <- & Hb'). eauto. Qed.
Lemma some_of {A} (l : list A) : l <> [] -> exists x, In x l.
Proof. destruct l as [|x l]; [easy|]. exists x. now left. Qed.
Lemma in_bo_app b b' n a : In a (snd (fst (bo_app b b')) n) <-> In a (snd (fst b) n) \/ In a (snd (fst b') (n + List.length (fst (fst b)))).
Proof. cbn [bo_app fst sh_app snd]. apply in_app_iff. Qed.

Lemma in_fill all l a : In a (fill all l) <-> (exists b, In b l /\ a = set_optional (Some true) b) \/ exists s, In s (missing all l) /\ a = absent false s.
Proof.
  unfold fill. rewrite in_app_iff, !in_map_iff. split; intros [(b & H1 & H2)|(b & H1 & H2)]; [left|right|left|right]; exists b; auto.
Qed.
(** the members of [both_item], for groups *)
Lemma both_group_inv vs o a c x : In x (both_item (PGroup vs o a c)) -> (exists v b, In v vs /\ In b (both (fst v)) /\ x = bo_kept vs o a v b) \/ (o = true /\ x = bo_drop vs a).
Proof.
  rewrite both_group, in_app_iff. intros [H|H].
  - apply in_flat_map in H as (v & Hv & H). apply in_map_iff in H as (b & <- & Hb). eauto 7.
  - destruct o; [|easy]. destruct H as [<-|[]]. auto.
Qed.
Lemma both_group_kept vs o a c v b : In v vs -> In b (both (fst v)) -> In (bo_kept vs o a v b) (both_item (PGroup vs o a c)).
Proof. intros Hv Hb. rewrite both_group. apply in_app_iff. left. apply in_flat_map. exists v. split; [exact Hv|now apply in_map]. Qed.
Lemma both_group_drop vs a c : In (bo_drop vs a) (both_item (PGroup vs true a c)).
Proof. rewrite both_group. apply in_app_iff. right. now left. Qed.
Lemma in_kept vs o a v b n x : In x (snd (fst (bo_kept vs o a v b)) n) <-> In x (tail a (if o then Some true else None) n (Some (n + List.length (fst v))) true) \/ In x (fill (inner vs) (snd (fst b) n)).
Proof. cbn [bo_kept fst snd]. apply in_app_iff. Qed.
Lemma in_drop vs a n x : In x (snd (fst (bo_drop vs a)) n) <-> In x (tail a (Some false) n (Some (n + last_len vs)) true) \/ exists s, In s (inner vs) /\ x = absent (is_some a) s.
Proof. cbn [bo_drop fst snd]. rewrite in_app_iff, in_map_iff. split; (intros [H|(s & H1 & H2)]; [auto|right; exists s; auto]). Qed.
Lemma in_tail al ob n f c x : In x (tail al ob n f c) <-> exists s, al = Some s /\ x = mkAlias s ob n f c.
Proof. destruct al as [s|]; simpl; split; [intros [<-|[]]; eauto|intros (t & [= <-] & ->); auto|easy|intros (t & H & _); discriminate]. Qed.
Lemma both_sym_inv s o a c x : In x (both_item (PSym s o a c)) -> forall n, snd (fst x) n = tail a (if o then Some true else None) n None true \/ (o = true /\ snd (fst x) n = tail a (Some false) n None true).
Proof. cbn [both_item]. intros [<-|H] n; [now left|]. destruct o; [|easy]. destruct H as [<-|[]]. now right. Qed.
Lemma both_spans ps b n : NoDup (pipe_spans ps) -> In b (both ps) -> Permutation (map a_alias (snd (fst b) n)) (pipe_spans ps).
Proof. intros N Hb. apply shapes_spans; auto. rewrite <- (proj1 (both_proj ps)). now apply in_map. Qed.
Lemma item_both_spans p b n : NoDup (alias_spans p) -> In b (both_item p) -> Permutation (map a_alias (snd (fst b) n)) (alias_spans p).
Proof.
  intros N Hb. pose proof (both_spans [p] (bo_app b bo_nil) n) as H. cbn [bo_app fst sh_app snd bo_nil] in H. rewrite app_nil_r in H. unfold pipe_spans in H. cbn [flat_map] in H. rewrite app_nil_r in H. apply H; auto.
  apply both_cons; [exact Hb|now left].
Qed.

Section T.
Variable text : span -> string.
Definition sty (a : item_alias) : option rust := stmt_type (write_alias text a).

(** ** every statement compiles *)
Lemma item_firm p n : filled p = true -> ((forall b, In b (both_item p) -> forall a, In a (snd (fst b) n) -> sty a <> None) <-> firm p = true).
Proof.
  intros Hfi. destruct p as [s o al c|vs o al c].
  - split; [reflexivity|]. intros _ b Hb a Ha. destruct (both_sym_inv _ _ _ _ _ Hb n) as [E|[-> E]]; rewrite E in Ha; apply in_tail in Ha as (t & _ & ->); unfold sty; [destruct o|]; discriminate.
  - cbn [firm]. split.
    + intros H. destruct o; [|reflexivity]. destruct al as [s|]; [|reflexivity]. exfalso. apply (H _ (both_group_drop vs (Some s) c) (mkAlias s (Some false) n (Some (n + last_len vs)) true)); [|reflexivity]. apply in_drop. left. apply in_tail. eauto.
    + intros Hfm b Hb a Ha. apply both_group_inv in Hb as [(v & b0 & Hv & Hb0 & ->)|[-> ->]].
      * apply in_kept in Ha as [Ha|Ha]; [apply in_tail in Ha as (t & _ & ->); destruct o; discriminate|]. apply in_fill in Ha as [(a0 & _ & ->)|(s & _ & ->)]; [|discriminate]. unfold sty, stmt_type. simpl. destruct (a_final a0); discriminate.
      * apply in_drop in Ha as [Ha|(s & _ & ->)]; [|discriminate]. apply in_tail in Ha as (t & -> & ->). discriminate.
Qed.
Lemma pipe_firm ps : forall n, forallb filled ps = true -> ((forall b, In b (both ps) -> forall a, In a (snd (fst b) n) -> sty a <> None) <-> forallb firm ps = true).
Proof.
  induction ps as [|p ps IH]; intros n Hf.
  - split; [reflexivity|]. intros _ b [<-|[]]. easy.
  - cbn [forallb] in Hf |- *. apply andb_true_iff in Hf as [Hp Hf]. rewrite andb_true_iff. split.
    + intros H. split.
      * apply (item_firm p n Hp). intros b Hb a Ha. destruct (some_of _ (both_nonempty _ Hf)) as (b' & Hb'). apply (H _ (both_cons p ps b b' Hb Hb')). apply in_bo_app. now left.
      * destruct (some_of _ (item_nonempty _ Hp)) as (b & Hb). apply (IH (n + List.length (fst (fst b))) Hf). intros b' Hb' a Ha. apply (H _ (both_cons p ps b b' Hb Hb')). apply in_bo_app. now right.
    + intros [H1 H2] x Hx a Ha. apply both_inv in Hx as (b & b' & Hb & Hb' & ->). apply in_bo_app in Ha as [Ha|Ha].
      * exact (proj2 (item_firm p n Hp) H1 b Hb a Ha).
      * exact (proj2 (IH _ Hf) H2 b' Hb' a Ha).
Qed.

(** ** one type per name, not counting [Option] *)
Definition bty (a : item_alias) : rust :=
  match a_final a with
  | None => if a_clone a then TItem else TRef
  | Some _ => if a_clone a then TVec else TSlice
  end.
Fixpoint gspans (p : pat) : list span :=
  match p with
  | PSym _ _ _ _ => []
  | PGroup vs _ a _ => opt_span a ++ flat_map (fun v => flat_map gspans (fst v)) vs
  end.
Lemma gspans_spans ps s : In s (flat_map gspans ps) -> In s (pipe_spans ps).
Proof.
  induction ps as [|s' o a c ps IH|vs o a c ps Hv IH] using pipe_ind; [easy|cbn [flat_map gspans app]|cbn [flat_map gspans]]; unfold pipe_spans in *; cbn [flat_map]; rewrite !in_app_iff; intros H.
  - right. auto.
  - destruct H as [[H|H]|H]; [left|left|right; auto]; rewrite alias_spans_group, in_app_iff; [now left|right]. apply in_flat_map in H as (v & Hiv & H). apply in_flat_map. exists v. split; [exact Hiv|]. exact (Hv v Hiv H).
Qed.
Lemma grouped_gspans ps : existsb grouped ps = true <-> flat_map gspans ps <> [].
Proof.
  induction ps as [|s' o a c ps IH|vs o a c ps Hv IH] using pipe_ind; cbn [existsb flat_map gspans grouped app orb]; [split; [discriminate|easy]|exact IH|].
  rewrite !orb_true_iff. rewrite IH. destruct a as [s|]; cbn [is_some opt_span app]; [split; [discriminate|intros _; left; now left]|]. split.
  - intros [[H|H]|H].
    + discriminate.
    + apply existsb_exists in H as (v & Hiv & H). apply (Hv v Hiv) in H. destruct (flat_map gspans (fst v)) as [|x l] eqn:E; [easy|]. intros F. apply app_eq_nil in F as [F _].
      assert (Hx : In x (flat_map (fun v => flat_map gspans (fst v)) vs)) by (apply in_flat_map; exists v; split; [exact Hiv|rewrite E; now left]). now rewrite F in Hx.
    + intros F. apply app_eq_nil in F as [_ F]. easy.
  - intros H. destruct (flat_map gspans ps) as [|y m] eqn:E2; [|right; discriminate]. rewrite app_nil_r in H. left. right. destruct (flat_map (fun v => flat_map gspans (fst v)) vs) as [|x l] eqn:E; [easy|].
    assert (Hx : In x (flat_map (fun v => flat_map gspans (fst v)) vs)) by (rewrite E; now left). apply in_flat_map in Hx as (v & Hiv & Hx). apply existsb_exists. exists v. split; [exact Hiv|]. apply (Hv v Hiv). intros F. now rewrite F in Hx.
Qed.

(** each alias is kept as written in some production *)
Definition kept_as (ps : list pat) (s : span) (t : rust) : Prop := forall n, exists b a, In b (both ps) /\ In a (snd (fst b) n) /\ a_alias a = s /\ bty a = t.
Lemma kept_head p ps s t : forallb filled ps = true -> (forall n, exists b a, In b (both_item p) /\ In a (snd (fst b) n) /\ a_alias a = s /\ bty a = t) -> kept_as (p :: ps) s t.
Proof.
  intros Hf H n. destruct (H n) as (b & a & Hb & Ha & H1 & H2). destruct (some_of _ (both_nonempty _ Hf)) as (b' & Hb'). exists (bo_app b b'), a. repeat split; auto; [now apply both_cons|apply in_bo_app; now left].
Qed.
Lemma kept_tail p ps s t : filled p = true -> kept_as ps s t -> kept_as (p :: ps) s t.
Proof.
  intros Hf H n. destruct (some_of _ (item_nonempty _ Hf)) as (b & Hb). destruct (H (n + List.length (fst (fst b)))) as (b' & a & Hb' & Ha & H1 & H2). exists (bo_app b b'), a. repeat split; auto; [now apply both_cons|apply in_bo_app; now right].
Qed.
Lemma kept_group_own vs o s c : filled (PGroup vs o (Some s) c) = true -> forall n, exists b a, In b (both_item (PGroup vs o (Some s) c)) /\ In a (snd (fst b) n) /\ a_alias a = s /\ bty a = TVec.
Proof.
  intros Hf n. cbn [filled] in Hf. apply andb_true_iff in Hf as [Hne Hf]. destruct vs as [|v vs]; [discriminate|]. cbn [forallb] in Hf. apply andb_true_iff in Hf as [Hf _]. destruct (some_of _ (both_nonempty _ Hf)) as (b & Hb).
  exists (bo_kept (v :: vs) o (Some s) v b), (mkAlias s (if o then Some true else None) n (Some (n + List.length (fst v))) true). repeat split; auto; [apply both_group_kept; [now left|exact Hb]|]. apply in_kept. left. apply in_tail. eauto.
Qed.
Lemma kept_group_in vs o al c v s t : In v vs -> kept_as (fst v) s t -> forall n, exists b a, In b (both_item (PGroup vs o al c)) /\ In a (snd (fst b) n) /\ a_alias a = s /\ bty a = t.
Proof.
  intros Hv H n. destruct (H n) as (b & a & Hb & Ha & H1 & H2). exists (bo_kept vs o al v b), (set_optional (Some true) a). repeat split; auto; [now apply both_group_kept|]. apply in_kept. right. apply in_fill. left. eauto.
Qed.
Lemma kept_vec ps : forall s, forallb filled ps = true -> In s (flat_map gspans ps) -> kept_as ps s TVec.
Proof.
  induction ps as [|s' o a c ps IH|vs o a c ps Hv IH] using pipe_ind; intros s Hf; cbn [forallb] in Hf; [easy| |]; apply andb_true_iff in Hf as [Hp Hf]; cbn [flat_map gspans app]; intros H.
  - apply kept_tail; auto.
  - rewrite !in_app_iff in H. destruct H as [[H|H]|H]; [| |apply kept_tail; auto].
    + destruct a as [t|]; [|easy]. destruct H as [<-|[]]. apply kept_head; auto. now apply kept_group_own.
    + apply in_flat_map in H as (v & Hiv & H). apply kept_head; auto. apply (kept_group_in vs o a c v); auto. apply (Hv v Hiv); auto. cbn [filled] in Hp. apply andb_true_iff in Hp as [_ Hp]. rewrite forallb_forall in Hp. exact (Hp v Hiv).
Qed.
Lemma kept_some ps : forall s, forallb filled ps = true -> In s (pipe_spans ps) -> kept_as ps s TVec \/ kept_as ps s TItem.
Proof.
  induction ps as [|s' o a c ps IH|vs o a c ps Hv IH] using pipe_ind; intros s Hf; cbn [forallb] in Hf; [easy| |]; apply andb_true_iff in Hf as [Hp Hf]; unfold pipe_spans; cbn [flat_map]; intros H; apply in_app_iff in H as [H|H].
  - cbn [alias_spans] in H. destruct a as [t|]; [|easy]. destruct H as [<-|[]]. right. apply kept_head; auto. intros n. eexists. exists (mkAlias t (if o then Some true else None) n None true). split; [cbn [both_item]; now left|]. repeat split; auto. apply in_tail; eauto.
  - destruct (IH s Hf H) as [K|K]; [left|right]; now apply kept_tail.
  - rewrite alias_spans_group in H. apply in_app_iff in H as [H|H].
    + destruct a as [t|]; [|easy]. destruct H as [<-|[]]. left. apply kept_head; auto. now apply kept_group_own.
    + apply in_flat_map in H as (v & Hiv & H). cbn [filled] in Hp. apply andb_true_iff in Hp as [_ Hp]. rewrite forallb_forall in Hp. destruct (Hv v Hiv s (Hp v Hiv) H) as [K|K]; [left|right]; (apply kept_head; auto; apply (kept_group_in vs o a c v); auto).
  - destruct (IH s Hf H) as [K|K]; [left|right]; now apply kept_tail.
Qed.

(** ** if the types agree the alternative is even *)
Definition agree (t : span -> rust) (ps : list pat) (n : nat) : Prop := forall b, In b (both ps) -> forall a, In a (snd (fst b) n) -> bty a = t (a_alias a).
Definition agree_item (t : span -> rust) (p : pat) (n : nat) : Prop := forall b, In b (both_item p) -> forall a, In a (snd (fst b) n) -> bty a = t (a_alias a).
Lemma agree_cons t p ps n : filled p = true -> forallb filled ps = true -> agree t (p :: ps) n -> agree_item t p n /\ exists m, agree t ps m.
Proof.
  intros Hp Hf H. split.
  - intros b Hb a Ha. destruct (some_of _ (both_nonempty _ Hf)) as (b' & Hb'). apply (H _ (both_cons p ps b b' Hb Hb')). apply in_bo_app. now left.
  - destruct (some_of _ (item_nonempty _ Hp)) as (b & Hb). exists (n + List.length (fst (fst b))). intros b' Hb' a Ha. apply (H _ (both_cons p ps b b' Hb Hb')). apply in_bo_app. now right.
Qed.
Lemma in_inner vs s : In s (inner vs) <-> exists v, In v vs /\ In s (pipe_spans (fst v)).
Proof. unfold inner. apply in_flat_map. Qed.
Lemma missing_other all vs (v : list pat * span) b n s : NoDup (pipe_spans (fst v)) -> In b (both (fst v)) -> all = inner vs -> In s (inner vs) -> ~ In s (pipe_spans (fst v)) -> In s (missing all (snd (fst b) n)).
Proof.
  intros N Hb -> Hi Hn. unfold missing. apply filter_In. split; [exact Hi|]. apply negb_true_iff. apply not_true_is_false. intros E. apply existsb_span in E. apply Hn.
  apply (Permutation_in s (both_spans _ b n N Hb)). exact E.
Qed.
Lemma NoDup_app_l {A} (l m : list A) : NoDup (l ++ m) -> NoDup l.
Proof. induction l as [|x l IH]; simpl; intros H; [constructor|]. inversion H as [|? ? H1 H2]; subst. constructor; [|now apply IH]. intros F. apply H1. apply in_app_iff. now left. Qed.
Lemma NoDup_app_r {A} (l m : list A) : NoDup (l ++ m) -> NoDup m.
Proof. induction l as [|x l IH]; simpl; intros H; [exact H|]. inversion H; subst. now apply IH. Qed.
Lemma NoDup_app_disj {A} (l m : list A) x : NoDup (l ++ m) -> In x l -> ~ In x m.
Proof. induction l as [|y l IH]; simpl; intros H; [easy|]. inversion H as [|? ? H1 H2]; subst. intros [->|Hx]; [|now apply IH]. intros F. apply H1. apply in_app_iff. now right. Qed.
Lemma NoDup_inner vs (v : list pat * span) : NoDup (inner vs) -> In v vs -> NoDup (pipe_spans (fst v)).
Proof.
  unfold inner. induction vs as [|w vs IH]; [easy|]. cbn [flat_map]. intros N [->|H]; [now apply NoDup_app_l in N|]. apply IH; auto. now apply NoDup_app_r in N.
Qed.

Lemma agree_even ps : forall t n, forallb filled ps = true -> NoDup (pipe_spans ps) -> agree t ps n -> forallb even ps = true.
Proof.
  induction ps as [|s' o al c ps IH|vs o al c ps Hv IH] using pipe_ind; intros t n Hf N H; [reflexivity| |]; cbn [forallb] in Hf; apply andb_true_iff in Hf as [Hp Hf]; destruct (agree_cons _ _ _ _ Hp Hf H) as [H1 (m & H2)]; unfold pipe_spans in N; cbn [flat_map] in N; cbn [forallb]; rewrite (IH t m Hf (NoDup_app_r _ _ N) H2), andb_true_r; [reflexivity|].
  apply NoDup_app_l in N. rewrite alias_spans_group in N. apply NoDup_app_r in N. fold (inner vs) in N. pose proof Hp as Hp0. cbn [filled] in Hp. apply andb_true_iff in Hp as [Hne Hp]. rewrite forallb_forall in Hp.
  assert (Hvar : forall v, In v vs -> agree t (fst v) n).
  { intros v Hiv b Hb a Ha. specialize (H1 _ (both_group_kept vs o al c v b Hiv Hb) (set_optional (Some true) a)). apply H1. apply in_kept. right. apply in_fill. left. eauto. }
  assert (Hkeep : forall s, In s (inner vs) -> t s = TVec \/ t s = TItem).
  { intros s Hs. apply in_inner in Hs as (v & Hiv & Hs). destruct (kept_some (fst v) s (Hp v Hiv) Hs) as [K|K]; destruct (K n) as (b & a & Hb & Ha & <- & E2); [left|right]; rewrite <- E2; symmetry; exact (Hvar v Hiv b Hb a Ha). }
  cbn [even]. apply andb_true_iff. split.
  - change (flat_map (fun v : list pat * span => pipe_spans (fst v)) vs) with (inner vs). destruct (inner vs) as [|s l] eqn:Ei; [reflexivity|]. rewrite <- Ei in *. assert (Hs : In s (inner vs)) by (rewrite Ei; now left).
    assert (Hlen : List.length vs = 1).
    { destruct vs as [|v1 [|v2 vs]]; [discriminate|reflexivity|]. exfalso.
      assert (Hother : exists v, In v (v1 :: v2 :: vs) /\ ~ In s (pipe_spans (fst v))).
      { destruct (in_dec (ltac:(decide equality; apply Nat.eq_dec) : forall x y : span, {x = y} + {x <> y}) s (pipe_spans (fst v1))) as [Hi|Hi]; [|exists v1; split; [now left|exact Hi]].
        exists v2. split; [right; now left|]. unfold inner in N. cbn [flat_map] in N. intros F. apply (NoDup_app_disj _ _ s N Hi). apply in_app_iff. now left. }
      destruct Hother as (v & Hiv & Hn). destruct (some_of _ (both_nonempty _ (Hp v Hiv))) as (b & Hb).
      assert (E : bty (absent false s) = t s).
      { apply (H1 _ (both_group_kept _ o al c v b Hiv Hb) (absent false s)). apply in_kept. right. apply in_fill. right. exists s. split; [|reflexivity]. apply (missing_other _ (v1 :: v2 :: vs) v); auto. exact (NoDup_inner _ v N Hiv). }
      destruct (Hkeep s Hs) as [K|K]; rewrite K in E; discriminate. }
    rewrite Hlen. cbn [Nat.eqb andb]. destruct o; [|reflexivity].
    assert (Hdrop : forall s, In s (inner vs) -> bty (absent (is_some al) s) = t s).
    { intros s0 Hs0. apply (H1 _ (both_group_drop vs al c) (absent (is_some al) s0)). apply in_drop. right. eauto. }
    destruct al as [s1|]; [|pose proof (Hdrop s Hs) as E; destruct (Hkeep s Hs) as [K|K]; rewrite K in E; discriminate]. cbn [is_some andb negb orb].
    apply negb_true_iff. apply not_true_is_false. intros Hg. apply existsb_exists in Hg as (v & Hiv & Hg). apply grouped_gspans in Hg. destruct (some_of _ Hg) as (s2 & Hs2). destruct (kept_vec (fst v) s2 (Hp v Hiv) Hs2 n) as (b & a & Hb & Ha & E1 & E2).
    assert (Hi2 : In s2 (inner vs)) by (apply in_inner; exists v; split; [exact Hiv|now apply gspans_spans]). pose proof (Hdrop s2 Hi2) as E3. pose proof (Hvar v Hiv b Hb a Ha) as E4. rewrite E1, E2 in E4. cbn [is_some] in E3. rewrite <- E4 in E3. discriminate.
  - apply forallb_forall. intros v Hiv. exact (Hv v Hiv t n (Hp v Hiv) (NoDup_inner vs v N Hiv) (Hvar v Hiv)).
Qed.
(** ** and if it is even they agree *)
Lemma span_in_dec (s : span) l : In s l \/ ~ In s l.
Proof. destruct (existsb (span_eqb s) l) eqn:E; [left; now apply existsb_span|right]. intros F. apply existsb_span in F. congruence. Qed.
Lemma gspans_item p s : In s (gspans p) -> In s (alias_spans p).
Proof. intros H. pose proof (gspans_spans [p] s) as K. unfold pipe_spans in K. cbn [flat_map] in K. rewrite !app_nil_r in K. auto. Qed.
Lemma even_types ps : forallb even ps = true -> NoDup (pipe_spans ps) -> forall b n a, In b (both ps) -> In a (snd (fst b) n) -> (In (a_alias a) (flat_map gspans ps) -> bty a = TVec) /\ (~ In (a_alias a) (flat_map gspans ps) -> bty a = TItem).
Proof.
  assert (C : forall p ps, NoDup (pipe_spans (p :: ps)) ->
    (forall b n a, In b (both_item p) -> In a (snd (fst b) n) -> (In (a_alias a) (gspans p) -> bty a = TVec) /\ (~ In (a_alias a) (gspans p) -> bty a = TItem)) ->
    (forall b n a, In b (both ps) -> In a (snd (fst b) n) -> (In (a_alias a) (flat_map gspans ps) -> bty a = TVec) /\ (~ In (a_alias a) (flat_map gspans ps) -> bty a = TItem)) ->
    forall b n a, In b (both (p :: ps)) -> In a (snd (fst b) n) -> (In (a_alias a) (flat_map gspans (p :: ps)) -> bty a = TVec) /\ (~ In (a_alias a) (flat_map gspans (p :: ps)) -> bty a = TItem)).
  { intros p qs N H1 H2 x n a Hx Ha. apply both_inv in Hx as (b & b' & Hb & Hb' & ->). unfold pipe_spans in N. cbn [flat_map] in N |- *. rewrite in_app_iff. apply in_bo_app in Ha as [Ha|Ha].
    - assert (Hi : In (a_alias a) (alias_spans p)) by (apply (Permutation_in _ (item_both_spans p b n (NoDup_app_l _ _ N) Hb)); now apply in_map).
      destruct (H1 b n a Hb Ha) as [K1 K2]. split; [|tauto]. intros [K|K]; [tauto|]. exfalso. apply (NoDup_app_disj _ _ _ N Hi). now apply gspans_spans.
    - assert (Hi : In (a_alias a) (pipe_spans qs)) by (apply (Permutation_in _ (both_spans qs b' (n + List.length (fst (fst b))) (NoDup_app_r _ _ N) Hb')); now apply in_map).
      destruct (H2 b' _ a Hb' Ha) as [K1 K2]. split; [|tauto]. intros [K|K]; [|tauto]. exfalso. apply (NoDup_app_disj _ _ (a_alias a) N); [now apply gspans_item|exact Hi]. }
  induction ps as [|s' o al c ps IH|vs o al c ps Hv IH] using pipe_ind; intros He N; [intros b n a [<-|[]]; easy| |]; cbn [forallb] in He; apply andb_true_iff in He as [Hp He]; pose proof N as N0; unfold pipe_spans in N; cbn [flat_map] in N; (apply C; [exact N0| |exact (IH He (NoDup_app_r _ _ N))]).
  - intros b n a Hb Ha. split; [easy|]. intros _. destruct (both_sym_inv _ _ _ _ _ Hb n) as [E|[_ E]]; rewrite E in Ha; apply in_tail in Ha as (t & _ & ->); reflexivity.
  - apply NoDup_app_l in N. rewrite alias_spans_group in N. pose proof (NoDup_app_r _ _ N) as Ni. fold (inner vs) in N, Ni. cbn [even] in Hp. apply andb_true_iff in Hp as [Hp Hev]. rewrite forallb_forall in Hev.
    change (flat_map (fun v : list pat * span => pipe_spans (fst v)) vs) with (inner vs) in Hp. intros x n a Hx Ha. cbn [gspans]. rewrite in_app_iff.
    assert (Hown : forall s, al = Some s -> In s (opt_span al) \/ In s (flat_map (fun v => flat_map gspans (fst v)) vs)) by (intros s ->; left; now left).
    assert (Hdis : forall s, In s (inner vs) -> ~ In s (opt_span al)) by (intros s Hs F; exact (NoDup_app_disj _ _ s N F Hs)).
    apply both_group_inv in Hx as [(v & b & Hiv & Hb & ->)|[-> ->]].
    + apply in_kept in Ha as [Ha|Ha].
      * apply in_tail in Ha as (s & E & ->). cbn [a_alias]. split; [reflexivity|]. intros F. destruct F. now apply Hown.
      * pose proof (both_spans (fst v) b n (NoDup_inner vs v Ni Hiv) Hb) as P. apply in_fill in Ha as [(a0 & Ha0 & ->)|(s & Hs & ->)].
        -- assert (Hi : In (a_alias a0) (pipe_spans (fst v))) by (apply (Permutation_in _ P); now apply in_map).
           change (a_alias (set_optional (Some true) a0)) with (a_alias a0). change (bty (set_optional (Some true) a0)) with (bty a0).
           destruct (Hv v Hiv (Hev v Hiv) (NoDup_inner vs v Ni Hiv) b n a0 Hb Ha0) as [K1 K2]. split; intros K.
           ++ apply K1. destruct K as [K|K]; [exfalso; apply (Hdis (a_alias a0)); [apply in_inner; eauto|exact K]|]. apply in_flat_map in K as (w & Hw & K). destruct (span_in_dec (a_alias a0) (flat_map gspans (fst v))) as [D|D]; [exact D|exfalso].
              assert (Hwv : w <> v) by (intros ->; easy). clear - Ni Hiv Hw Hwv Hi K. apply gspans_spans in K. revert Ni. unfold inner. induction vs as [|u us IHu]; [easy|]. cbn [flat_map]. intros Ni. destruct Hiv as [->|Hiv], Hw as [->|Hw]; [easy| | |].
              ** apply (NoDup_app_disj _ _ (a_alias a0) Ni Hi). apply in_flat_map. exists w. auto.
              ** apply (NoDup_app_disj _ _ (a_alias a0) Ni K). apply in_flat_map. exists v. auto.
              ** apply IHu; auto. now apply NoDup_app_r in Ni.
           ++ apply K2. intros F. apply K. right. apply in_flat_map. eauto.
        -- exfalso. unfold missing in Hs. apply filter_In in Hs as [Hs Hm]. destruct (inner vs) as [|s0 l] eqn:Ei; [easy|]. apply andb_true_iff in Hp as [Hl _]. apply Nat.eqb_eq in Hl. destruct vs as [|v1 [|v2 vs]]; try discriminate. destruct Hiv as [->|[]].
           apply negb_true_iff in Hm. assert (Ht : existsb (span_eqb s) (map a_alias (snd (fst b) n)) = true); [|congruence]. apply existsb_span. apply (Permutation_in s (Permutation_sym P)). rewrite <- Ei in Hs. unfold inner in Hs. cbn [flat_map] in Hs. now rewrite app_nil_r in Hs.
    + apply in_drop in Ha as [Ha|(s & Hs & ->)].
      * apply in_tail in Ha as (s & E & ->). cbn [a_alias]. split; [reflexivity|]. intros F. destruct F. now apply Hown.
      * destruct (inner vs) as [|s0 l] eqn:Ei; [easy|]. rewrite <- Ei in *. apply andb_true_iff in Hp as [_ Hp]. cbn [negb orb] in Hp. apply andb_true_iff in Hp as [Ha Hg]. rewrite Ha. apply negb_true_iff in Hg. cbn [absent a_alias]. split; [|reflexivity]. intros [F|F]; [exfalso; exact (Hdis s Hs F)|]. exfalso.
        apply in_flat_map in F as (v & Hiv & F). assert (Ht : existsb (fun v : list pat * span => existsb grouped (fst v)) vs = true); [|congruence]. apply existsb_exists. exists v. split; [exact Hiv|]. apply grouped_gspans. intros G. now rewrite G in F.
Qed.

(** ** plain or optional *)
Lemma plain_own p n : In n (plain_item text p) -> exists s, n = text s /\ (match p with PSym _ o a _ | PGroup _ o a _ => o = false /\ a = Some s end).
Proof. destruct p as [s [|] [a|] c|vs [|] [a|] c]; simpl; try easy; intros [<-|[]]; eauto. Qed.
Lemma item_plain p b n a : NoDup (item_names text p) -> In b (both_item p) -> In a (snd (fst b) n) -> (a_optional a = None <-> In (text (a_alias a)) (plain_item text p)).
Proof.
  intros N Hb Ha. destruct p as [s o al c|vs o al c].
  - destruct (both_sym_inv _ _ _ _ _ Hb n) as [E|[-> E]]; rewrite E in Ha; apply in_tail in Ha as (t & -> & ->); [destruct o|]; simpl; split; try discriminate; try easy; auto.
  - assert (Hdis : forall s, In s (inner vs) -> ~ In (text s) (plain_item text (PGroup vs o al c))).
    { intros s Hs F. apply plain_own in F as (s' & E & _ & ->). unfold item_names, names in N. rewrite alias_spans_group, map_app in N. apply (NoDup_app_disj _ _ (text s) N); [rewrite E; now left|now apply in_map]. }
    pose proof N as N0. unfold item_names, names in N. apply NoDup_map_inv in N. rewrite alias_spans_group in N. pose proof (NoDup_app_r _ _ N) as Ni. fold (inner vs) in Ni.
    apply both_group_inv in Hb as [(v & b0 & Hv & Hb0 & ->)|[-> ->]].
    + apply in_kept in Ha as [Ha|Ha].
      * apply in_tail in Ha as (t & -> & ->). destruct o; simpl; split; try discriminate; try easy; auto.
      * assert (Hin : In (a_alias a) (inner vs)).
        { apply in_fill in Ha as [(a0 & Ha0 & ->)|(s & Hs & ->)]; [|unfold missing in Hs; apply filter_In in Hs; apply Hs]. apply in_inner. exists v. split; [exact Hv|]. apply (Permutation_in _ (both_spans (fst v) b0 n (NoDup_inner vs v Ni Hv) Hb0)). change (a_alias (set_optional (Some true) a0)) with (a_alias a0). now apply in_map. }
        split; [|intros F; destruct (Hdis _ Hin F)]. apply in_fill in Ha as [(a0 & _ & ->)|(s & _ & ->)]; discriminate.
    + apply in_drop in Ha as [Ha|(s & Hs & ->)]; [apply in_tail in Ha as (t & -> & ->); simpl; split; [discriminate|easy]|]. split; [discriminate|]. intros F. destruct (Hdis s Hs F).
Qed.
Lemma pipe_plain ps : NoDup (pipe_names text ps) -> forall b n a, In b (both ps) -> In a (snd (fst b) n) -> (a_optional a = None <-> In (text (a_alias a)) (plain text ps)).
Proof.
  induction ps as [|p ps IH]; intros N x n a Hx Ha; [destruct Hx as [<-|[]]; easy|]. apply both_inv in Hx as (b & b' & Hb & Hb' & ->). rewrite pipe_names_cons in N. pose proof (NoDup_app_l _ _ N) as N1. pose proof (NoDup_app_r _ _ N) as N2.
  pose proof (NoDup_map_inv _ _ N1) as S1. pose proof (NoDup_map_inv _ _ N2) as S2. unfold plain. cbn [flat_map]. rewrite in_app_iff. apply in_bo_app in Ha as [Ha|Ha].
  - rewrite (item_plain p b n a N1 Hb Ha). split; [now left|]. intros [F|F]; [exact F|]. exfalso. apply (NoDup_app_disj _ _ (text (a_alias a)) N); [|now apply plain_pipe_names]. apply in_map. apply (Permutation_in _ (item_both_spans p b n S1 Hb)). now apply in_map.
  - rewrite (IH N2 b' _ a Hb' Ha). split; [now right|]. intros [F|F]; [|exact F]. exfalso. apply (NoDup_app_disj _ _ (text (a_alias a)) N); [now apply plain_names|]. apply in_map. apply (Permutation_in _ (both_spans ps b' (n + List.length (fst (fst b))) S2 Hb')). now apply in_map.
Qed.

(** a slice is never taken by reference *)
Lemma slice_clone ps : forall b n a, In b (both ps) -> In a (snd (fst b) n) -> a_final a <> None -> a_clone a = true.
Proof.
  assert (C : forall p ps, (forall b n a, In b (both_item p) -> In a (snd (fst b) n) -> a_final a <> None -> a_clone a = true) -> (forall b n a, In b (both ps) -> In a (snd (fst b) n) -> a_final a <> None -> a_clone a = true) -> forall b n a, In b (both (p :: ps)) -> In a (snd (fst b) n) -> a_final a <> None -> a_clone a = true).
  { intros p qs H1 H2 x n a Hx Ha. apply both_inv in Hx as (b & b' & Hb & Hb' & ->). apply in_bo_app in Ha as [Ha|Ha]; eauto. }
  induction ps as [|s' o al c ps IH|vs o al c ps Hv IH] using pipe_ind; [intros b n a [<-|[]]; easy| |]; (apply C; [|exact IH]); intros x n a Hx Ha.
  - destruct (both_sym_inv _ _ _ _ _ Hx n) as [E|[_ E]]; rewrite E in Ha; apply in_tail in Ha as (t & _ & ->); reflexivity.
  - apply both_group_inv in Hx as [(v & b & Hiv & Hb & ->)|[-> ->]].
    + apply in_kept in Ha as [Ha|Ha]; [apply in_tail in Ha as (t & _ & ->); reflexivity|]. apply in_fill in Ha as [(a0 & Ha0 & ->)|(s & _ & ->)]; [exact (Hv v Hiv b n a0 Hb Ha0)|easy].
    + apply in_drop in Ha as [Ha|(s & _ & ->)]; [apply in_tail in Ha as (t & _ & ->); reflexivity|easy].
Qed.
Definition strip (t : rust) : rust := match t with TOption t => t | t => t end.
Lemma sty_bty a t : (a_final a <> None -> a_clone a = true) -> sty a = Some t -> t = (if is_some (a_optional a) then TOption (bty a) else bty a).
Proof.
  unfold sty, stmt_type, write_alias, bty. destruct a as [s [[|]|] i [f|] [|]]; simpl; intros Hc E; try (specialize (Hc ltac:(discriminate)); discriminate); try discriminate; injection E as <-; reflexivity.
Qed.
Lemma bty_strip a : strip (if is_some (a_optional a) then TOption (bty a) else bty a) = bty a.
Proof. unfold bty. destruct a as [s [[|]|] i [f|] [|]]; reflexivity. Qed.
End T.

Section F.
Variable text : span -> string.
Variable order : prod_build -> list prod_build -> list span -> list span.
Variable dbg : bool.
Hypothesis Ho : iterates order.

Lemma emits_filled ts alt r bs c : emits text order dbg ts alt r bs c -> forallb filled (fst alt) = true.
Proof.
  intros (b & rs & ds & ds1 & name & ty & alts & ds2 & fs & i & Hr & Hd & Hf & E & Hin & Hi & Hfs). destruct (from_tokens_process text order dbg ts ds Hf) as (g & F0 & (l & Eg & Fl) & _).
  apply nth_error_In, in_flat_map in Hi as (a & Ha & Hi). apply in_map_iff in Hi as (r' & [= -> _] & _).
  assert (Hd' : In (DRule name ty alts) ds) by (rewrite E; apply in_app_iff; right; now left). destruct (Forall2_in_r_ex _ _ _ _ Fl Hd') as (g' & _ & R). inversion R as [? ? ? rule ? Eg' F| |]; subst.
  destruct (Forall2_in_r_ex _ _ _ _ F Ha) as (u & _ & _ & Hp). exact (rep_filled _ _ Hp).
Qed.

Theorem firm_exact ts alt r0 bs0 c0 : emits text order dbg ts alt r0 bs0 c0 -> NoDup (pipe_names text (fst alt)) ->
  ((forall r bs c, emits text order dbg ts alt r bs c -> forall b, In b bs -> stmt_type b <> None) <-> forallb firm (fst alt) = true).
Proof.
  intros He N. pose proof (emits_filled _ _ _ _ _ He) as Hf. rewrite <- (pipe_firm text (fst alt) 0 Hf). split.
  - intros H [x r] Hx a Ha. destruct (emits_all text order dbg Ho _ _ _ _ _ He N x r Hx) as (bs & c & He' & P). apply (H r bs c He'). apply (Permutation_in _ (Permutation_sym P)). now apply in_map.
  - intros H r bs c He' b Hb. destruct (emits_both text order dbg Ho _ _ _ _ _ He' N) as (x & Hx & P). apply (Permutation_in _ P) in Hb. apply in_map_iff in Hb as (a & <- & Ha). exact (H (x, r) Hx a Ha).
Qed.

Lemma forallb_and {A} (f g : A -> bool) l : forallb (fun x => f x && g x) l = forallb f l && forallb g l.
Proof. induction l as [|x l IH]; [reflexivity|]. simpl. rewrite IH. destruct (f x), (g x), (forallb f l); reflexivity. Qed.
Lemma NoDup_inj {A B} (f : A -> B) l x y : NoDup (map f l) -> In x l -> In y l -> f x = f y -> x = y.
Proof.
  induction l as [|z l IH]; [easy|]. cbn [map]. intros N Hx Hy E. inversion N as [|? ? N1 N2]; subst. destruct Hx as [->|Hx], Hy as [->|Hy]; auto; exfalso; apply N1; [rewrite E|rewrite <- E]; now apply in_map.
Qed.
Theorem even_exact ts alt r0 bs0 c0 : emits text order dbg ts alt r0 bs0 c0 -> NoDup (pipe_names text (fst alt)) ->
  ((exists ty, forall r bs c, emits text order dbg ts alt r bs c -> forall b, In b bs -> stmt_type b = Some (ty (bd_name b))) <-> forallb (fun p => firm p && even p) (fst alt) = true).
Proof.
  intros He N. pose proof (emits_filled _ _ _ _ _ He) as Hf. pose proof (NoDup_map_inv _ _ N) as Ns. rewrite forallb_and. split.
  - intros (ty & H). apply andb_true_iff. split.
    + apply (firm_exact _ _ _ _ _ He N). intros r bs c He' b Hb. rewrite (H r bs c He' b Hb). discriminate.
    + apply (agree_even (fst alt) (fun s => strip (ty (text s))) 0 Hf Ns). intros [x r] Hx a Ha. destruct (emits_all text order dbg Ho _ _ _ _ _ He N x r Hx) as (bs & c & He' & P).
      assert (Hb : In (write_alias text a) bs) by (apply (Permutation_in _ (Permutation_sym P)); now apply in_map). pose proof (H r bs c He' _ Hb) as E. change (bd_name (write_alias text a)) with (text (a_alias a)) in E.
      rewrite (sty_bty text a _ (slice_clone _ _ _ _ Hx Ha) E). symmetry. apply bty_strip.
  - intros H. apply andb_true_iff in H as [H1 H2].
    exists (fun n => let t := if existsb (String.eqb n) (map text (flat_map gspans (fst alt))) then TVec else TItem in if existsb (String.eqb n) (plain text (fst alt)) then t else TOption t).
    intros r bs c He' b Hb. pose proof (proj2 (firm_exact _ _ _ _ _ He N) H1 r bs c He' b Hb) as Hn.
    destruct (emits_both text order dbg Ho _ _ _ _ _ He' N) as (x & Hx & P). apply (Permutation_in _ P) in Hb. apply in_map_iff in Hb as (a & <- & Ha). destruct (stmt_type (write_alias text a)) as [t|] eqn:Et; [|easy]. f_equal.
    rewrite (sty_bty text a _ (slice_clone _ _ _ _ Hx Ha) Et). change (bd_name (write_alias text a)) with (text (a_alias a)).
    pose proof (pipe_plain text (fst alt) N _ 0 a Hx Ha) as Hpl. destruct (even_types (fst alt) H2 Ns _ 0 a Hx Ha) as [K1 K2].
    assert (Hi : In (a_alias a) (pipe_spans (fst alt))) by (apply (Permutation_in _ (both_spans (fst alt) _ 0 Ns Hx)); now apply in_map).
    assert (Eb : bty a = (if existsb (String.eqb (text (a_alias a))) (map text (flat_map gspans (fst alt))) then TVec else TItem)).
    { destruct (existsb (String.eqb (text (a_alias a))) (map text (flat_map gspans (fst alt)))) eqn:Ex.
      - apply existsb_string in Ex. apply K1. apply in_map_iff in Ex as (s & Es & Hs). replace (a_alias a) with s; [exact Hs|]. apply (NoDup_inj text (pipe_spans (fst alt))); auto. now apply gspans_spans.
      - apply K2. intros F. apply (in_map text) in F. apply existsb_string in F. congruence. }
    rewrite <- Eb. cbn zeta. destruct (existsb (String.eqb (text (a_alias a))) (plain text (fst alt))) eqn:Ex.
    + apply existsb_string in Ex. apply Hpl in Ex. now rewrite Ex.
    + destruct (a_optional a); [reflexivity|]. assert (F : In (text (a_alias a)) (plain text (fst alt))) by now apply Hpl. apply existsb_string in F. congruence.
Qed.
End F.
