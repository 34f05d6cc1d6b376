(** What wop binds in each production of an alternative whose names differ, in closed form. *)
From Coq Require Import List Bool Arith Lia String Permutation.
From Verif Require Import BTree Model Strings Wop WopSpec WopP WopType WopNames Base.
Import ListNotations.
Local Open Scope list_scope.
Local Open Scope nat_scope.

(** the symbols of a production and its aliases, given where it begins *)
Definition sh : Type := (list span * (nat -> list item_alias))%type.
Definition sh_app (r r' : sh) : sh := (fst r ++ fst r', fun n => snd r n ++ snd r' (n + List.length (fst r))).
Definition absent (c : bool) (s : span) : item_alias := mkAlias s (Some false) 0 None c.
Definition missing (all : list span) (l : list item_alias) : list span := filter (fun s => negb (existsb (span_eqb s) (map a_alias l))) all.
Definition fill (all : list span) (l : list item_alias) : list item_alias := map (set_optional (Some true)) l ++ map (absent false) (missing all l).
Definition inner (vs : list (list pat * span)) : list span := flat_map (fun v => flat_map alias_spans (fst v)) vs.
Definition last_len (vs : list (list pat * span)) : nat := List.length (fst (last vs ([], (0, 0)))).

Fixpoint shapes_item (p : pat) : list sh :=
  match p with
  | PSym s o a _ => ([s], fun n => tail a (if o then Some true else None) n None true) :: (if o then [([], fun n => tail a (Some false) n None true)] else [])
  | PGroup vs o a _ =>
      flat_map (fun v => map (fun r => (fst r, fun n => tail a (if o then Some true else None) n (Some (n + List.length (fst v))) true ++ fill (inner vs) (snd r n)))
        ((fix pipe ps := match ps with
          | [] => [([], fun _ => [])]
          | p :: ps' => flat_map (fun r => map (sh_app r) (pipe ps')) (shapes_item p)
          end) (fst v))) vs ++
      (if o then [([], fun n => tail a (Some false) n (Some (n + last_len vs)) true ++ map (absent (is_some a)) (inner vs))] else [])
  end.
Fixpoint shapes (ps : list pat) : list sh :=
  match ps with
  | [] => [([], fun _ => [])]
  | p :: ps' => flat_map (fun r => map (sh_app r) (shapes ps')) (shapes_item p)
  end.
Lemma shapes_group vs o a c :
  shapes_item (PGroup vs o a c) =
    flat_map (fun v => map (fun r => (fst r, fun n => tail a (if o then Some true else None) n (Some (n + List.length (fst v))) true ++ fill (inner vs) (snd r n))) (shapes (fst v))) vs ++
    (if o then [([], fun n => tail a (Some false) n (Some (n + last_len vs)) true ++ map (absent (is_some a)) (inner vs))] else []).
Proof. reflexivity. Qed.

(** the same choices in the same order *)
Lemma shapes_runs_cons p ps : map fst (shapes_item p) = map fst (runs_item p) -> map fst (shapes ps) = map fst (runs ps) -> map fst (shapes (p :: ps)) = map fst (runs (p :: ps)).
Proof.
  intros Ep IH. cbn [shapes runs]. rewrite !map_flat_map. revert Ep. generalize (runs_item p) as l'. generalize (shapes_item p) as l.
  induction l as [|r l IHl]; intros [|r' l'] El; try discriminate; [reflexivity|]. injection El as E1 E2. cbn [flat_map]. f_equal; [|now apply IHl].
  transitivity (map (app (fst r)) (map fst (shapes ps))); [now rewrite !map_map|]. rewrite IH, E1. now rewrite !map_map.
Qed.
Lemma shapes_runs ps : map fst (shapes ps) = map fst (runs ps).
Proof.
  induction ps as [|s o a c ps IH|vs o a c ps Hv IH] using pipe_ind; [reflexivity| |]; apply shapes_runs_cons; auto.
  - destruct o; reflexivity.
  - rewrite shapes_group, runs_item_group, !map_app. f_equal; [|now destruct o]. rewrite map_map. cbn [fst]. rewrite !map_flat_map. apply flat_map_ext_in. intros v Hiv.
    rewrite map_map. cbn [fst]. exact (Hv v Hiv).
Qed.

(** each of the aliases appears once *)
Lemma missing_perm all l : NoDup all -> NoDup (map a_alias l) -> (forall s, In s (map a_alias l) -> In s all) -> Permutation (map a_alias l ++ missing all l) all.
Proof.
  intros N Nl H. apply NoDup_Permutation; auto.
  - apply NoDup_app_intro; auto; [apply NoDup_filter, N|]. intros x Hx Hm. apply filter_In in Hm as [_ Hm]. apply negb_true_iff in Hm. apply existsb_span in Hx. congruence.
  - intros x. rewrite in_app_iff. split; [intros [Hx|Hx]; [auto|now apply filter_In in Hx]|]. intros Hx. destruct (existsb (span_eqb x) (map a_alias l)) eqn:E.
    + left. now apply existsb_span.
    + right. apply filter_In. now rewrite E.
Qed.
Lemma fill_spans all l : map a_alias (fill all l) = map a_alias l ++ missing all l.
Proof. unfold fill. rewrite map_app, !map_map. f_equal. apply map_id. Qed.
Lemma tail_spans al ob i f c : map a_alias (tail al ob i f c) = opt_span al.
Proof. now destruct al. Qed.
Lemma alias_spans_group vs o a c : alias_spans (PGroup vs o a c) = opt_span a ++ inner vs.
Proof. now destruct a. Qed.
Lemma inner_in vs v s : In v vs -> In s (pipe_spans (fst v)) -> In s (inner vs).
Proof. intros Hv Hs. apply in_flat_map. now exists v. Qed.
Lemma inner_nodup vs v : NoDup (inner vs) -> In v vs -> NoDup (pipe_spans (fst v)).
Proof.
  induction vs as [|u vs IH]; [easy|]. unfold inner. simpl. intros N [<-|Hv].
  - clear - N. unfold pipe_spans. induction (flat_map alias_spans (fst u)) as [|x l IHl]; [constructor|]. inversion N as [|? ? Hx N']; subst. constructor; [|auto]. intros H. apply Hx. apply in_app_iff. now left.
  - apply IH; auto. eapply NoDup_app_r; eauto.
Qed.
Lemma NoDup_app_l {A} (l m : list A) : NoDup (l ++ m) -> NoDup l.
Proof. induction l; simpl; intros H; [constructor|]. inversion H as [|? ? Hx N]; subst. constructor; auto. intros Hy. apply Hx, in_app_iff. now left. Qed.

Lemma shapes_spans ps : NoDup (pipe_spans ps) -> forall x n, In x (shapes ps) -> Permutation (map a_alias (snd x n)) (pipe_spans ps).
Proof.
  assert (C : forall p ps, NoDup (pipe_spans (p :: ps)) -> (NoDup (alias_spans p) -> forall x n, In x (shapes_item p) -> Permutation (map a_alias (snd x n)) (alias_spans p)) ->
    (NoDup (pipe_spans ps) -> forall x n, In x (shapes ps) -> Permutation (map a_alias (snd x n)) (pipe_spans ps)) ->
    forall x n, In x (shapes (p :: ps)) -> Permutation (map a_alias (snd x n)) (pipe_spans (p :: ps))).
  { intros p qs N H1 H2 x n Hx. cbn [shapes] in Hx. apply in_flat_map in Hx as (r & Hr & Hx). apply in_map_iff in Hx as (r' & <- & Hr').
    cbn [sh_app snd]. rewrite map_app. unfold pipe_spans in *. cbn [flat_map] in *. apply Permutation_app; [apply H1; auto; eapply NoDup_app_l; eauto|apply H2; auto; eapply NoDup_app_r; eauto]. }
  induction ps as [|s o a c ps IH|vs o a c ps Hv IH] using pipe_ind; intros N.
  - intros x n [<-|[]]. constructor.
  - apply C; auto. intros _ x n Hx. assert (E : map a_alias (snd x n) = alias_spans (PSym s o a c)); [|now rewrite E]. cbn [shapes_item] in Hx. destruct o; repeat destruct Hx as [<-|Hx]; try easy; cbn [snd]; rewrite tail_spans; now destruct a.
  - apply C; auto. clear C N IH. intros N x n Hx. rewrite alias_spans_group in N |- *. pose proof (NoDup_app_r _ _ N) as Ni. rewrite shapes_group in Hx. apply in_app_iff in Hx as [Hx|Hx].
    + apply in_flat_map in Hx as (v & Hiv & Hx). apply in_map_iff in Hx as (r & <- & Hr). cbn [snd]. rewrite map_app, tail_spans, fill_spans. apply Permutation_app_head.
      pose proof (inner_nodup _ _ Ni Hiv) as Nv. pose proof (Hv v Hiv Nv r n Hr) as Pr. apply missing_perm; auto.
      * eapply Permutation_NoDup; [symmetry; exact Pr|exact Nv].
      * intros y Hy. apply (inner_in vs v); auto. exact (Permutation_in _ Pr Hy).
    + destruct o; [|easy]. destruct Hx as [<-|[]]. cbn [snd]. rewrite map_app, tail_spans, map_map. cbn [absent a_alias]. rewrite map_id. reflexivity.
Qed.

Section S.
Variable text : span -> string.
Variable order : prod_build -> list prod_build -> list span -> list span.
Hypothesis Ho : iterates order.
Variable defs : bmap string span.
Notation single := (single text order defs).
Notation tx a := (text (a_alias a)).
Notation sub1 := (sub1 text).

Definition shaped (prod p : prod_build) (x : sh) : Prop :=
  pb_production p = pb_production prod ++ map (definition text defs) (fst x) /\ Permutation (pb_aliases p) (pb_aliases prod ++ snd x (List.length (pb_production prod))).
Definition fresh (prod : prod_build) (ps : list pat) : Prop := NoDup (map (fun a => tx a) (pb_aliases prod) ++ pipe_names text ps).

Lemma shaped_app prod p1 p2 r1 r2 : shaped prod p1 r1 -> shaped p1 p2 r2 -> shaped prod p2 (sh_app r1 r2).
Proof.
  intros [A1 A2] [B1 B2]. split; cbn [sh_app fst snd].
  - rewrite B1, A1, map_app. now rewrite app_assoc.
  - rewrite B2, A1, app_length, map_length. rewrite app_assoc. now apply Permutation_app_tail.
Qed.
Lemma fresh_item prod p ps : fresh prod (p :: ps) -> fresh prod [p].
Proof. unfold fresh. rewrite pipe_names_one, pipe_names_cons, app_assoc. apply NoDup_app_l. Qed.
Lemma names_nodup l : NoDup (map text l) -> NoDup l.
Proof. apply NoDup_map_inv. Qed.
Lemma fresh_next prod p ps o x : fresh prod (p :: ps) -> In x (shapes_item p) -> shaped prod o x -> fresh o ps.
Proof.
  unfold fresh. rewrite pipe_names_cons, app_assoc. intros N Hx [_ Pa]. eapply Permutation_NoDup; [|exact N]. apply Permutation_app_tail. symmetry.
  rewrite <- (map_map a_alias text). rewrite (Permutation_map text (Permutation_map a_alias Pa)). rewrite !map_app, map_map. apply Permutation_app_head. unfold item_names, names. apply Permutation_map.
  assert (N1 : NoDup (pipe_spans [p])). { apply NoDup_app_l, NoDup_app_r in N. unfold pipe_spans. simpl. rewrite app_nil_r. apply names_nodup. exact N. }
  pose proof (shapes_spans [p] N1 (sh_app x ([], fun _ => [])) (List.length (pb_production prod))) as Q. unfold pipe_spans in Q. cbn [flat_map sh_app snd] in Q. rewrite !app_nil_r in Q. apply Q.
  cbn [shapes]. apply in_flat_map. exists x. split; [exact Hx|]. now left.
Qed.

Lemma mapM_forall2 {A B} (f : A -> res B) l m : mapM f l = Val m -> Forall2 (fun a b => f a = Val b) l m.
Proof.
  revert m. induction l as [|a l IH]; intros m E; [injection E as <-; constructor|]. cbn [mapM] in E. apply bind_val in E as (b & E1 & E). apply bind_val in E as (bs & E2 & E). injection E as <-. constructor; auto.
Qed.
Lemma many_shape n gs prod p ps origin xs out : (forall o l, fresh o ps -> single n o gs = Val l -> Forall2 (shaped o) l (shapes ps)) -> rep_pipe gs ps ->
  fresh prod (p :: ps) -> (forall x, In x xs -> In x (shapes_item p)) -> Forall2 (shaped prod) origin xs ->
  match gs with [] => Val origin | _ => do l <- mapM (fun o => single n o gs) origin; Val (List.concat l) end = Val out ->
  Forall2 (shaped prod) out (flat_map (fun r => map (sh_app r) (shapes ps)) xs).
Proof.
  intros H Hr Hf Hin F E.
  assert (Hone : forall o x l, In x xs -> shaped prod o x -> Forall2 (shaped o) l (shapes ps) -> Forall2 (shaped prod) l (map (sh_app x) (shapes ps))).
  { intros o x l Hx Hs Fl. apply Forall2_map_r. eapply Forall2_imp; [|exact Fl]. intros p2 r2 H2. eapply shaped_app; eauto. }
  destruct gs as [|g gs].
  - injection E as <-. inversion Hr; subst. clear H Hin. induction F as [|o x origin xs Hs F IH]; [constructor|]. cbn [flat_map shapes map app]. constructor; [|apply IH; intros; eapply Hone; eauto; now right].
    specialize (Hone o x [o] (or_introl eq_refl) Hs). cbn [shapes map] in Hone. assert (G : Forall2 (shaped prod) [o] [sh_app x ([], fun _ => [])]); [|now inversion G].
    apply Hone. repeat constructor; cbn [fst snd]; now rewrite ?app_nil_r.
  - apply bind_val in E as (l & E & E'). injection E' as <-. apply mapM_forall2 in E. revert xs F Hin Hone. induction E as [|o lo origin l Eo E IH]; intros xs F Hin Hone; inversion F as [|? x ? xs' Hs F']; subst; [constructor|].
    cbn [List.concat flat_map]. apply Forall2_app.
    + apply (Hone o x lo (or_introl eq_refl) Hs). apply H; auto. eapply fresh_next; eauto. apply Hin. now left.
    + apply IH; auto; intros; [apply Hin; now right|eapply Hone; eauto; now right].
Qed.

Lemma single_nonempty n gs ps prod out : rep_pipe gs ps -> single n prod gs = Val out -> out <> [].
Proof. intros Hr E. exact (proj1 (WopNames.single_names text order Ho defs n gs ps prod out Hr E)). Qed.

(** the aliases of groups *)
Lemma miss_fold c X : forall l, NoDup (map a_alias X) -> fold_left (miss1 c) X l = l ++ map (fun a => absent c (a_alias a)) (filter (fun a => negb (existsb (span_eqb (a_alias a)) (map a_alias l))) X).
Proof.
  induction X as [|a X IH]; intros l N; [simpl; now rewrite app_nil_r|]. inversion N as [|? ? Ha N']; subst. cbn [fold_left filter]. unfold miss1 at 2.
  destruct (existsb (fun b => span_eqb (a_alias b) (a_alias a)) l) eqn:E.
  - apply has_span in E. apply existsb_span in E. rewrite E. cbn [negb]. now apply IH.
  - assert (E' : existsb (span_eqb (a_alias a)) (map a_alias l) = false). { destruct (existsb (span_eqb (a_alias a)) (map a_alias l)) eqn:E'; [|reflexivity]. apply existsb_span, has_span in E'. congruence. }
    rewrite E'. cbn [negb map]. rewrite IH by exact N'. rewrite <- app_assoc. cbn [app]. f_equal. f_equal. f_equal. apply filter_ext_in. intros b Hb. rewrite map_app, existsb_app. cbn [map existsb a_alias]. 
    destruct (span_eqb_spec (a_alias b) (a_alias a)) as [Eb|_]; [|now rewrite !orb_false_r]. exfalso. apply Ha. rewrite <- Eb. now apply in_map.
Qed.
Lemma filter_perm {A} (f : A -> bool) l m : Permutation l m -> Permutation (filter f l) (filter f m).
Proof.
  induction 1; simpl; auto.
  - destruct (f x); auto.
  - destruct (f x), (f y); auto using perm_swap.
  - etransitivity; eauto.
Qed.

Section Group.
Variables (prod : prod_build) (vs : list (list pat * span)) (o : bool) (al : option span) (cl : bool).
Notation off := (List.length (pb_production prod)).
Notation ob := (if o then Some true else None).
Notation base f := (with_aliases prod (pb_aliases prod ++ tail al ob off f true)).
Hypothesis Hf : fresh prod [PGroup vs o al cl].
Variable news : list prod_build.
Definition sbranch (p : prod_build) (x : (list pat * span) * sh) : Prop :=
  In (fst x) vs /\ In (snd x) (shapes (fst (fst x))) /\ shaped (base (Some (off + List.length (fst (fst x))))) p (snd x).
Hypothesis Hnews : Forall2 sbranch news (flat_map (fun v => map (pair v) (shapes (fst v))) vs).
Hypothesis Hshapes : forall v, In v vs -> shapes (fst v) <> [].
Variable f' : option nat.
Notation N := (order (base f') news (filter (fun s => negb (existsb (span_eqb s) (map a_alias (pb_aliases (base f')))))
  (dedup (map a_alias (flat_map pb_aliases news))))).

Lemma group_fresh : NoDup (map (fun a => tx a) (pb_aliases prod) ++ map text (opt_span al) ++ map text (inner vs)).
Proof. unfold fresh, pipe_names, names, pipe_spans in Hf. cbn [flat_map] in Hf. rewrite app_nil_r, alias_spans_group, map_app in Hf. exact Hf. Qed.
Lemma inner_names : NoDup (map text (inner vs)).
Proof. pose proof group_fresh as G. apply NoDup_app_r, NoDup_app_r in G. exact G. Qed.
Lemma inner_nd : NoDup (inner vs).
Proof. apply names_nodup, inner_names. Qed.
Lemma base_spans f : map a_alias (pb_aliases (base f)) = map a_alias (pb_aliases prod) ++ opt_span al.
Proof. simpl. rewrite map_app, tail_spans. reflexivity. Qed.
Lemma inner_base s f : In s (inner vs) -> ~ In s (map a_alias (pb_aliases (base f))).
Proof.
  rewrite base_spans. intros Hs Hb. pose proof group_fresh as G. rewrite app_assoc in G. apply (NoDup_app_remove' _ _ G (text s)); [|now apply in_map].
  rewrite <- (map_map a_alias text), <- map_app. now apply in_map.
Qed.
Lemma branch_spans p x : sbranch p x -> Permutation (map a_alias (pb_aliases p)) (map a_alias (pb_aliases prod) ++ opt_span al ++ pipe_spans (fst (fst x))).
Proof.
  intros (Hv & Hx & _ & Pa). rewrite (Permutation_map a_alias Pa), map_app, base_spans. rewrite <- app_assoc. do 2 apply Permutation_app_head. apply shapes_spans; auto. exact (inner_nodup _ _ inner_nd Hv).
Qed.
Lemma N_inner_perm : Permutation N (inner vs).
Proof.
  rewrite (Ho _ _ _). apply NoDup_Permutation; [apply NoDup_filter, dedup_nodup|apply inner_nd|]. intros s. rewrite filter_In, dedup_in, negb_true_iff. split.
  - intros [Hs Hb]. apply in_map_iff in Hs as (a & <- & Ha). apply in_flat_map in Ha as (p & Hp & Ha). destruct (Forall2_in_l_ex _ _ _ _ Hnews Hp) as (x & _ & B).
    apply (in_map a_alias) in Ha. apply (Permutation_in _ (branch_spans p x B)) in Ha. rewrite app_assoc in Ha. apply in_app_iff in Ha as [Ha|Ha].
    + exfalso. rewrite <- (base_spans f') in Ha. apply existsb_span in Ha. congruence.
    + exact (inner_in _ _ _ (proj1 B) Ha).
  - intros Hs. split.
    + apply in_flat_map in Hs as (v & Hv & Hs). destruct (shapes (fst v)) as [|r rs] eqn:Er; [now destruct (Hshapes v Hv)|].
      assert (Hx : In (v, r) (flat_map (fun v => map (pair v) (shapes (fst v))) vs)) by (apply in_flat_map; exists v; split; [exact Hv|]; rewrite Er; now left).
      destruct (Forall2_in_r_ex _ _ _ _ Hnews Hx) as (p & Hp & B). pose proof (branch_spans p _ B) as Pb. cbn [fst] in Pb.
      assert (Ha : In s (map a_alias (pb_aliases p))) by (apply (Permutation_in _ (Permutation_sym Pb)); rewrite !in_app_iff; auto).
      apply in_map_iff in Ha as (a & <- & Ha). apply in_map, in_flat_map. now exists p.
    + destruct (existsb _ _) eqn:E; [|reflexivity]. apply existsb_span in E. now apply inner_base in E.
Qed.

Lemma group_shape_kept p x : sbranch p x ->
  shaped prod (with_aliases p (fold_left sub1 N (pb_aliases p)))
    (fst (snd x), fun n => tail al ob n (Some (n + List.length (fst (fst x)))) true ++ fill (inner vs) (snd (snd x) n)).
Proof.
  intros B. pose proof B as (Hv & Hx & P1 & Pa). split; [exact P1|]. pose proof (branch_spans p x B) as Pb. pose proof N_inner_perm as PN. pose proof inner_names as Nn.
  set (Ns := N) in *. clearbody Ns. cbn [pb_aliases with_aliases snd]. cbn [pb_aliases with_aliases pb_production] in Pa.
  assert (Nx : NoDup (map (fun a => tx a) (pb_aliases p))).
  { rewrite <- (map_map a_alias text). eapply Permutation_NoDup; [symmetry; apply Permutation_map; exact Pb|]. pose proof group_fresh as G. rewrite !map_app, map_map.
    rewrite app_assoc in G |- *. apply NoDup_app_intro.
    - exact (NoDup_app_l _ _ G).
    - clear - Nn Hv. revert Nn. induction vs as [|u us IH]; [easy|]. unfold inner. cbn [flat_map]. rewrite map_app. intros Nn. destruct Hv as [->|Hv]; [exact (NoDup_app_l _ _ Nn)|]. apply IH; auto. exact (NoDup_app_r _ _ Nn).
    - intros t Ht Ht'. apply (NoDup_app_remove' _ _ G t Ht). apply in_map_iff in Ht' as (s & <- & Hs). apply in_map. exact (inner_in _ _ _ Hv Hs). }
  pose proof (sub_fold text Ns [] (pb_aliases p)) as Ef. cbn [app] in Ef. rewrite Ef; auto.
  2: { eapply Permutation_NoDup; [symmetry; exact PN|apply inner_nd]. }
  2: { intros s s' Hs Hs' Et. left. apply (Permutation_in _ PN) in Hs. apply (Permutation_in _ PN) in Hs'. clear - Nn Hs Hs' Et. revert Nn Hs Hs'. generalize (inner vs). induction l as [|y l IH]; [easy|]. simpl. intros Nn. inversion Nn as [|? ? Hy Nn']; subst.
       intros [<-|Hs] [<-|Hs']; auto; exfalso; apply Hy; [rewrite Et|rewrite <- Et]; now apply in_map. }
  clear Ef. set (mk := fun a => if existsb (String.eqb (tx a)) (names text Ns) then set_optional (Some true) a else a).
  assert (Hmk : forall a, In (a_alias a) (inner vs) -> mk a = set_optional (Some true) a).
  { intros a Ha. unfold mk. replace (existsb _ _) with true; [reflexivity|]. symmetry. apply existsb_string. unfold names. apply in_map. exact (Permutation_in _ (Permutation_sym PN) Ha). }
  assert (Hmk' : forall a f, In (a_alias a) (map a_alias (pb_aliases (base f))) -> mk a = a).
  { intros a f Ha. unfold mk. replace (existsb _ _) with false; [reflexivity|]. symmetry. apply existsb_string_false. unfold names. intros Hn. apply in_map_iff in Hn as (s & Et & Hs).
    apply (Permutation_in _ PN) in Hs. rewrite base_spans in Ha. pose proof group_fresh as G. rewrite app_assoc in G. apply (NoDup_app_remove' _ _ G (tx a)).
    - rewrite <- (map_map a_alias text), <- map_app. now apply in_map.
    - rewrite <- Et. now apply in_map. }
  pose proof (shapes_spans (fst (fst x)) (inner_nodup _ _ inner_nd Hv) (snd x) off Hx) as Px. unfold fill.
  assert (Hmis : Permutation (filter (fun s => negb (existsb (String.eqb (text s)) (map (fun a => tx a) (pb_aliases p)))) Ns) (missing (inner vs) (snd (snd x) off))).
  { rewrite (filter_perm _ _ _ PN). unfold missing. apply Permutation_refl'. apply filter_ext_in. intros s Hs. f_equal.
    assert (Ee : In (text s) (map (fun a => tx a) (pb_aliases p)) <-> In s (map a_alias (snd (snd x) off))).
    { rewrite <- (map_map a_alias text). split.
      - intros Ht. apply (Permutation_in _ (Permutation_map text Pb)) in Ht. rewrite !map_app, app_assoc in Ht. apply in_app_iff in Ht as [Ht|Ht].
        + exfalso. pose proof group_fresh as G. rewrite app_assoc in G. rewrite <- map_map in G. apply (NoDup_app_remove' _ _ G (text s) Ht). now apply in_map.
        + apply (Permutation_in _ (Permutation_sym Px)). apply in_map_iff in Ht as (s' & Et & Hs'). assert (s' = s) as <-; [|exact Hs'].
          pose proof (inner_in _ _ _ Hv Hs') as Hi. clear - Nn Hs Hi Et. revert Nn Hs Hi. generalize (inner vs). induction l as [|y l IH]; [easy|]. simpl. intros Nn. inversion Nn as [|? ? Hy Nn']; subst.
          intros [<-|Hs] [<-|Hs']; auto; exfalso; apply Hy; [rewrite <- Et|rewrite Et]; now apply in_map.
      - intros Hi. apply in_map. apply (Permutation_in _ (Permutation_sym Pb)). rewrite !in_app_iff. right. right. exact (Permutation_in _ Px Hi). }
    apply eq_true_iff_eq. rewrite existsb_string, existsb_span. exact Ee. }
  rewrite (Permutation_map _ Hmis). rewrite (Permutation_map mk Pa). rewrite !map_app.
  assert (E1 : map mk (pb_aliases prod) = pb_aliases prod).
  { rewrite <- (map_id (pb_aliases prod)) at 2. apply map_ext_in. intros a Ha. apply (Hmk' a None). simpl. rewrite map_app, in_app_iff. left. now apply in_map. }
  assert (E2 : map mk (tail al ob off (Some (off + List.length (fst (fst x)))) true) = tail al ob off (Some (off + List.length (fst (fst x)))) true).
  { rewrite <- (map_id (tail _ _ _ _ _)) at 2. apply map_ext_in. intros a Ha. apply (Hmk' a (Some (off + List.length (fst (fst x))))). simpl. rewrite map_app, in_app_iff. right. now apply in_map. }
  assert (E3 : map mk (snd (snd x) off) = map (set_optional (Some true)) (snd (snd x) off)).
  { apply map_ext_in. intros a Ha. apply Hmk. apply (inner_in _ (fst x)); auto. apply (Permutation_in _ Px). now apply in_map. }
  rewrite E1, E2, E3. rewrite <- !app_assoc. apply Permutation_refl.
Qed.

Lemma group_shape_dropped p x rest : news = p :: rest -> sbranch p x -> forall c f,
  let p0 := with_aliases p (fold_left sub1 N (pb_aliases p)) in
  shaped prod (fold_left (add_missing c) (pb_aliases p0) (with_aliases prod (pb_aliases prod ++ tail al (Some false) off (Some (off + f)) true)))
    ([], fun n => tail al (Some false) n (Some (n + f)) true ++ map (absent c) (inner vs)).
Proof.
  intros _ B c f p0. pose proof (group_shape_kept p x B) as [_ Pk]. rewrite add_missing_fold.
  assert (Ps : Permutation (map a_alias (pb_aliases p0)) (map a_alias (pb_aliases prod) ++ opt_span al ++ inner vs)).
  { unfold p0. rewrite (Permutation_map a_alias Pk). cbn [snd]. rewrite !map_app, tail_spans, fill_spans. do 2 apply Permutation_app_head. pose proof B as (Hv & Hx & _).
    pose proof (shapes_spans (fst (fst x)) (inner_nodup _ _ inner_nd Hv) (snd x) off Hx) as Px. apply missing_perm; [apply inner_nd| |].
    - eapply Permutation_NoDup; [symmetry; exact Px|]. exact (inner_nodup _ _ inner_nd Hv).
    - intros s Hs. apply (inner_in _ (fst x)); auto. exact (Permutation_in _ Px Hs). }
  assert (Nd : NoDup (map a_alias (pb_aliases p0))).
  { eapply Permutation_NoDup; [symmetry; exact Ps|]. apply (names_nodup). rewrite !map_app, map_map. apply group_fresh. }
  rewrite miss_fold by exact Nd. split; cbn [pb_production with_aliases pb_aliases fst snd map]; [now rewrite app_nil_r|]. rewrite <- app_assoc. do 2 apply Permutation_app_head.
  rewrite <- (map_map a_alias (absent c)). apply Permutation_map. 
  set (L := map a_alias (pb_aliases prod ++ tail al (Some false) off (Some (off + f)) true)).
  assert (Ef : forall l, map a_alias (filter (fun a => negb (existsb (span_eqb (a_alias a)) L)) l) = filter (fun s => negb (existsb (span_eqb s) L)) (map a_alias l)).
  { induction l as [|a l IH]; [reflexivity|]. cbn [filter map]. destruct (negb _); cbn [map]; now rewrite IH. }
  rewrite Ef, (filter_perm _ _ _ Ps). rewrite app_assoc, filter_app.
  assert (EL : L = map a_alias (pb_aliases prod) ++ opt_span al) by (unfold L; now rewrite map_app, tail_spans). rewrite <- EL.
  assert (F1 : filter (fun s => negb (existsb (span_eqb s) L)) L = []).
  { apply filter_none. intros s Hs. apply negb_false_iff. now apply existsb_span. }
  assert (F2 : forall m, (forall s, In s m -> ~ In s L) -> filter (fun s => negb (existsb (span_eqb s) L)) m = m).
  { induction m as [|s m IH]; intros Hm; [reflexivity|]. cbn [filter]. destruct (existsb (span_eqb s) L) eqn:E; [apply existsb_span in E; exfalso; apply (Hm s); auto; now left|]. cbn [negb]. f_equal. apply IH. intros y Hy. apply Hm. now right. }
  rewrite F1, F2; [reflexivity|]. intros s Hs. rewrite EL, <- (base_spans None). now apply inner_base.
Qed.
End Group.

Lemma fresh_variant prod vs o al cl v i f ob : fresh prod [PGroup vs o al cl] -> In v vs -> fresh (with_aliases prod (pb_aliases prod ++ tail al ob i f true)) (fst v).
Proof.
  intros Hf Hv. pose proof (group_fresh prod vs o al cl Hf) as G. unfold fresh. cbn [pb_aliases with_aliases]. rewrite map_app.
  assert (Et : map (fun a => tx a) (tail al ob i f true) = map text (opt_span al)) by now destruct al.
  rewrite Et, <- app_assoc. clear Et. revert Hv G. induction vs as [|u us IH]; [easy|]. intros Hv G. unfold inner in G. cbn [flat_map] in G. rewrite map_app in G.
  destruct Hv as [<-|Hv].
  - rewrite !app_assoc in G. apply NoDup_app_l in G. rewrite <- app_assoc in G. exact G.
  - assert (G' : NoDup (map (fun a => tx a) (pb_aliases prod) ++ map text (opt_span al) ++ map text (inner us))).
    { rewrite app_assoc in G |- *. apply NoDup_app_intro; [exact (NoDup_app_l _ _ G)|exact (NoDup_app_r _ _ (NoDup_app_r _ _ G))|].
      intros t Ht Hi. apply (NoDup_app_remove' _ _ G t Ht). apply in_app_iff. now right. }
    apply IH; auto. unfold fresh, pipe_names, names, pipe_spans. cbn [flat_map]. rewrite app_nil_r, alias_spans_group, map_app. exact G'.
Qed.

Lemma variants_shape n prod (o : bool) al cl off vs0 : off = List.length (pb_production prod) -> fresh prod [PGroup vs0 o al cl] -> forall (vs : list (list pat * span)) variants,
  Forall2 (fun a b => snd a = snd b /\ Forall2 rep (fst a) (fst b)) variants vs -> (forall v, In v vs -> In v vs0) ->
  (forall gs (v : list pat * span) b out, Forall2 rep gs (fst v) -> fresh b (fst v) -> single n b gs = Val out -> Forall2 (shaped b) out (shapes (fst v))) ->
  forall f acc prod' prods,
    foldM (fun '(prod, prods) '(variant, a) =>
        if span_eqb a (0, 0) then
          do al <- match al with
            | Some _ => map_last (set_final (Some (List.length (pb_production prod) + List.length variant))) (pb_aliases prod)
            | None => Val (pb_aliases prod)
            end;
          do news <- single n (with_aliases prod al) variant;
          Val (with_aliases prod al, prods ++ news)
        else Panic P_assert) variants (with_aliases prod (pb_aliases prod ++ tail al (if o then Some true else None) off f true), acc) = Val (prod', prods) ->
    exists news, prods = acc ++ news /\ prod' = with_aliases prod (pb_aliases prod ++ tail al (if o then Some true else None) off (match vs with [] => f | _ => Some (off + last_len vs) end) true) /\
      (vs <> [] -> news <> []) /\ (forall v, In v vs -> shapes (fst v) <> []) /\
      Forall2 (fun p x => In (fst x) vs /\ In (snd x) (shapes (fst (fst x))) /\
        shaped (with_aliases prod (pb_aliases prod ++ tail al (if o then Some true else None) off (Some (off + List.length (fst (fst x)))) true)) p (snd x))
      news (flat_map (fun v => map (pair v) (shapes (fst v))) vs).
Proof.
  intros Eoff Hf vs variants F Hin Hs. induction F as [|[gs a] v variants vs [Es Fr] F IH]; intros f acc prod' prods E.
  - injection E as <- <-. exists []. rewrite app_nil_r. split; [reflexivity|]. split; [reflexivity|]. split; [easy|]. split; [easy|constructor].
  - simpl in Es, Fr. cbn [foldM] in E. apply bind_val in E as ([q1 q2] & E1 & E). destruct (span_eqb a (0, 0)); [|discriminate].
    change (pb_aliases (with_aliases prod ?x)) with x in E1. rewrite last_own in E1. cbn [bind] in E1. apply bind_val in E1 as (out & En & E1). injection E1 as <- <-.
    change (pb_production (with_aliases prod ?x)) with (pb_production prod) in En, E. change (with_aliases (with_aliases prod ?x) ?y) with (with_aliases prod y) in En, E.
    assert (Et : map (set_final (Some (List.length (pb_production prod) + List.length gs))) (tail al (if o then Some true else None) off f true)
                = tail al (if o then Some true else None) off (Some (off + List.length (fst v))) true).
    { rewrite Eoff, (Forall2_len _ _ _ Fr). destruct al; reflexivity. }
    rewrite Et in En, E. destruct (IH (fun x Hx => Hin x (or_intror Hx)) _ _ _ _ E) as (news & -> & -> & Hn & Hsh & Fn).
    pose proof (single_nonempty _ _ _ _ _ Fr En) as Hne.
    assert (Fo : Forall2 (shaped (with_aliases prod (pb_aliases prod ++ tail al (if o then Some true else None) off (Some (off + List.length (fst v))) true))) out (shapes (fst v))).
    { apply (Hs gs v); auto. apply (fresh_variant prod vs0 o al cl); auto. apply Hin. now left. }
    exists (out ++ news). rewrite app_assoc. split; [reflexivity|]. split; [|split; [|split]].
    + destruct vs as [|v2 vs]; reflexivity.
    + intros _. now destruct out.
    + intros v' [<-|H]; [|auto]. intros E0. rewrite E0 in Fo. inversion Fo. congruence.
    + cbn [flat_map]. apply Forall2_app.
      * apply Forall2_map_r. clear - Fo.
        assert (H : Forall2 (fun a c0 => In c0 (shapes (fst v)) /\ shaped (with_aliases prod (pb_aliases prod ++ tail al (if o then Some true else None) off (Some (off + List.length (fst v))) true)) a c0) out (shapes (fst v))).
        { remember (shapes (fst v)) as R eqn:ER. clear ER. induction Fo; constructor; auto.
          - split; [now left|easy].
          - eapply Forall2_imp; [|exact IHFo]. intros ? ? [? ?]. split; [now right|easy]. }
        eapply Forall2_imp; [|exact H]. intros p r [H1 H2]. simpl. auto.
      * eapply Forall2_imp; [|exact Fn]. intros p x (H1 & H2). split; [now right|exact H2].
Qed.

Theorem single_shape n : forall gs ps prod out, rep_pipe gs ps -> fresh prod ps -> single n prod gs = Val out -> Forall2 (shaped prod) out (shapes ps).
Proof.
  induction n as [|n IH]; [discriminate|]. intros gs ps prod out Hr Hf E.
  destruct Hr as [|g p gs ps Hg Hr].
  { injection E as <-. constructor; [|constructor]. split; cbn [fst snd map]; now rewrite app_nil_r. }
  assert (Hmany : forall origin, Forall2 (shaped prod) origin (shapes_item p) ->
    match gs with [] => Val origin | _ => do l <- mapM (fun o => single n o gs) origin; Val (List.concat l) end = Val out -> Forall2 (shaped prod) out (shapes (p :: ps))).
  { intros origin Fo Em. cbn [shapes]. eapply many_shape; eauto. }
  pose proof (fresh_item _ _ _ Hf) as Hf1.
  destruct Hg as [g item opt al cl' Ea Ht|g item opt al cl' variants vs Ea Ht Ei Hne Fv]; cbn [Wop.single] in E; rewrite Ea in E; rewrite push_own in E;
    assert (Ecl : forall ob i f, tail al ob i f (is_some al) = tail al ob i f true) by (intros; now destruct al); rewrite Ecl in E.
  - set (prod1 := with_aliases prod _) in E.
    assert (Hk : shaped prod (with_production prod1 (pb_production prod1 ++ [definition text defs (g_span item)])) ([g_span item], fun n => tail al (if opt then Some true else None) n None true)).
    { split; reflexivity. }
    assert (E' : (if opt then
        do al0 <- match al with Some _ => map_last (set_optional (Some false)) (pb_aliases prod1) | None => Val (pb_aliases prod1) end;
        match gs with [] => Val [with_production prod1 (pb_production prod1 ++ [definition text defs (g_span item)]); with_aliases prod1 al0]
        | _ => do l <- mapM (fun o => single n o gs) [with_production prod1 (pb_production prod1 ++ [definition text defs (g_span item)]); with_aliases prod1 al0]; Val (List.concat l) end
      else single n (with_production prod1 (pb_production prod1 ++ [definition text defs (g_span item)])) gs) = Val out) by (destruct Ht as [Ht|Ht]; rewrite Ht in E; exact E).
    clear E. destruct opt.
    + unfold prod1 in E' at 1 2. change (pb_aliases (with_aliases prod ?x)) with x in E'. rewrite last_own, set_optional_tail in E'. cbn [bind] in E'.
      eapply Hmany; [|exact E']. constructor; [exact Hk|]. constructor; [|constructor]. split; cbn [fst snd map]; [now rewrite app_nil_r|reflexivity].
    + cbn [shapes shapes_item flat_map]. rewrite app_nil_r. apply Forall2_map_r. eapply Forall2_imp; [|eapply IH; [exact Hr| |exact E']].
      * intros p2 r2 H2. eapply shaped_app; eauto.
      * eapply fresh_next; [exact Hf| |exact Hk]. now left.
  - rewrite Ht, Ei in E. apply bind_val in E as ([prod2 prods] & Ef & E).
    destruct (variants_shape n prod opt al cl' _ vs eq_refl Hf1 vs variants Fv (fun v H => H)) with (f := @None nat) (acc := @nil prod_build) (prod' := prod2) (prods := prods) as (news & En & -> & Hn1 & Hn2 & Fn); [|exact Ef|].
    { intros gs' v b out' Hrep Hfb Eb. exact (IH _ _ _ _ Hrep Hfb Eb). }
    cbn [app] in En. subst prods. specialize (Hn1 Hne).
    assert (Em : (match vs with [] => @None nat | _ => Some (List.length (pb_production prod) + last_len vs) end) = Some (List.length (pb_production prod) + last_len vs)) by (destruct vs; [easy|reflexivity]).
    rewrite Em in E. rewrite sub_eq in E. set (N := order _ _ _) in E.
    assert (Hkept : Forall2 (shaped prod) (map (fun p => with_aliases p (fold_left (sub1) N (pb_aliases p))) news)
      (flat_map (fun v => map (fun r => (fst r, fun n => tail al (if opt then Some true else None) n (Some (n + List.length (fst v))) true ++ fill (inner vs) (snd r n))) (shapes (fst v))) vs)).
    { assert (Em2 : flat_map (fun v => map (fun r : sh => (fst r, fun n => tail al (if opt then Some true else None) n (Some (n + List.length (fst v))) true ++ fill (inner vs) (snd r n))) (shapes (fst v))) vs
        = map (fun x : (list pat * span) * sh => (fst (snd x), fun n => tail al (if opt then Some true else None) n (Some (n + List.length (fst (fst x)))) true ++ fill (inner vs) (snd (snd x) n))) (flat_map (fun v => map (pair v) (shapes (fst v))) vs)).
      { rewrite map_flat_map. apply flat_map_ext. intros v. rewrite map_map. reflexivity. }
      refine (eq_ind_r (fun l => Forall2 (shaped prod) _ l) _ Em2). apply Forall2_map_l, Forall2_map_r. eapply Forall2_imp; [|exact Fn]. intros p x B. exact (group_shape_kept prod vs opt al cl' Hf1 news Fn Hn2 _ p x B). }
    destruct news as [|p0 rest]; [easy|]. assert (B : exists x0, sbranch prod vs opt al p0 x0) by (inversion Fn; eauto). destruct B as (x0 & B0).
    apply bind_val in E as (prods2 & E2 & E). eapply Hmany; [|exact E]. rewrite shapes_group. destruct opt.
    + change (pb_aliases (with_aliases prod ?x)) with x in E2. rewrite last_own, set_optional_tail in E2. cbn [bind] in E2. cbn [map nth_error expect bind] in E2.
      injection E2 as <-. apply (Forall2_app Hkept). constructor; [|constructor].
      exact (group_shape_dropped prod vs true al cl' Hf1 (p0 :: rest) Fn Hn2 _ p0 x0 rest eq_refl B0 (is_some al) (last_len vs)).
    + injection E2 as <-. rewrite app_nil_r. exact Hkept.
Qed.
End S.
