(** Proofs about wop's builder (Wop.v against WopSpec.v). *)
From Coq Require Import List Bool Arith String Permutation Lia.
From Verif Require Import BTree Model Strings Wop WopSpec.
Import ListNotations.
Local Open Scope list_scope.
Local Open Scope nat_scope.

(** ** sizes and the unfolded forms of the specification *)
Fixpoint size (p : pat) : nat :=
  match p with
  | PSym _ _ _ _ => 1
  | PGroup vs _ _ _ => S (list_sum (map (fun v => S (list_sum (map size (fst v)))) vs))
  end.
Definition psize (ps : list pat) : nat := list_sum (map size ps).

Lemma expand_item_group vs o a c :
  expand_item (PGroup vs o a c) = flat_map (fun v => expand (fst v)) vs ++ (if o then [[]] else []).
Proof. reflexivity. Qed.
Lemma runs_item_group vs o a c :
  runs_item (PGroup vs o a c)
  = map (fun r => (fst r, at_own a (Some (List.length (fst r))) ++ snd r)) (flat_map (fun v => runs (fst v)) vs) ++ (if o then [([], [])] else []).
Proof. reflexivity. Qed.

Lemma size_pos p : 0 < size p.
Proof. destruct p; simpl; lia. Qed.
Lemma psize_in (vs : list (list pat * span)) v : In v vs -> psize (fst v) < list_sum (map (fun v => S (list_sum (map size (fst v)))) vs).
Proof.
  induction vs as [|u vs IH]; simpl; [easy|]. intros [<-|H].
  - unfold psize. lia.
  - specialize (IH H). lia.
Qed.

(** strong induction over pipes *)
Lemma pipe_ind (P : list pat -> Prop) :
  P [] ->
  (forall s o a c ps, P ps -> P (PSym s o a c :: ps)) ->
  (forall vs o a c ps, (forall v, In v vs -> P (fst v)) -> P ps -> P (PGroup vs o a c :: ps)) ->
  forall ps, P ps.
Proof.
  intros H0 Hs Hg ps.
  remember (psize ps) as n eqn:E. assert (L : psize ps <= n) by lia. clear E.
  revert ps L. induction n as [n IH] using lt_wf_ind. intros [|p ps] L; [exact H0|].
  assert (E : psize (p :: ps) = size p + psize ps) by reflexivity.
  pose proof (size_pos p) as Hp.
  destruct p as [s o a c|vs o a c].
  - apply Hs. apply (IH (psize ps)); simpl in *; lia.
  - apply Hg.
    + intros v Hv. apply psize_in in Hv. apply (IH (psize (fst v))); simpl in *; lia.
    + apply (IH (psize ps)); simpl in *; lia.
Qed.

Lemma map_flat_map {A B C} (f : B -> C) (g : A -> list B) l : map f (flat_map g l) = flat_map (fun x => map f (g x)) l.
Proof. induction l; simpl; [reflexivity|]. now rewrite map_app, IHl. Qed.
Lemma flat_map_map {A B C} (f : A -> B) (g : B -> list C) l : flat_map g (map f l) = flat_map (fun x => g (f x)) l.
Proof. induction l; simpl; [reflexivity|]. now rewrite IHl. Qed.
Lemma flat_map_flat_map {A B C} (f : A -> list B) (g : B -> list C) l : flat_map g (flat_map f l) = flat_map (fun x => flat_map g (f x)) l.
Proof. induction l; simpl; [reflexivity|]. now rewrite flat_map_app, IHl. Qed.
Lemma flat_map_ext_in {A B} (f g : A -> list B) l : (forall x, In x l -> f x = g x) -> flat_map f l = flat_map g l.
Proof. induction l; simpl; intros H; [reflexivity|]. rewrite H, IHl; auto. Qed.

Lemma runs_expand ps : map fst (runs ps) = expand ps.
Proof.
  induction ps as [|s o a c ps IH|vs o a c ps Hv IH] using pipe_ind; simpl.
  - reflexivity.
  - rewrite !map_app, !map_map. simpl. rewrite <- IH, map_map. f_equal.
    destruct o; simpl; [|reflexivity]. rewrite !app_nil_r, !map_map. reflexivity.
  - change (map fst (flat_map (fun r => map (run_app r) (runs ps)) (runs_item (PGroup vs o a c)))
      = flat_map (fun w => map (app w) (expand ps)) (expand_item (PGroup vs o a c))).
    rewrite map_flat_map, runs_item_group, expand_item_group, !flat_map_app. f_equal.
    + rewrite flat_map_map, !flat_map_flat_map. apply flat_map_ext_in. intros v Hin.
      rewrite <- (Hv v Hin), flat_map_map, <- IH. apply flat_map_ext_in. intros r _. rewrite !map_map. reflexivity.
    + destruct o; simpl; [|reflexivity]. rewrite !app_nil_r, <- IH, !map_map. reflexivity.
Qed.

Lemma expand_picks ps : forall w, In w (expand ps) <-> picks ps w.
Proof.
  induction ps as [|s o a c ps IH|vs o a c ps Hv IH] using pipe_ind; intros w.
  - simpl. split; [intros [<-|[]]; constructor|intros H; inversion H; now left].
  - simpl. rewrite in_app_iff, in_map_iff. split.
    + intros [(u & <- & Hu)|H].
      * constructor. now apply IH.
      * destruct o; [|destruct H]. simpl in H. rewrite app_nil_r, in_map_iff in H. destruct H as (u & <- & Hu).
        constructor. now apply IH.
    + intros H. inversion H; subst.
      * left. exists w0. split; [reflexivity|]. now apply IH.
      * right. simpl. rewrite app_nil_r, in_map_iff. exists w. split; [reflexivity|]. now apply IH.
  - change (expand (PGroup vs o a c :: ps)) with (flat_map (fun w => map (app w) (expand ps)) (expand_item (PGroup vs o a c))).
    rewrite expand_item_group, flat_map_app, in_app_iff, in_flat_map. split.
    + intros [(u & Hu & Hw)|H].
      * apply in_flat_map in Hu. destruct Hu as (v & Hin & Hu). apply in_map_iff in Hw. destruct Hw as (x & <- & Hx).
        apply picks_group with v; auto; [now apply Hv|now apply IH].
      * destruct o; [|destruct H]. simpl in H. rewrite app_nil_r, in_map_iff in H. destruct H as (u & <- & Hu).
        constructor. now apply IH.
    + intros H. inversion H; subst.
      * left. exists w0. split; [apply in_flat_map; exists v; split; [easy|now apply Hv]|].
        apply in_map_iff. exists w'. split; [reflexivity|]. now apply IH.
      * right. simpl. rewrite app_nil_r, in_map_iff. exists w. split; [reflexivity|]. now apply IH.
Qed.

(** ** small facts *)
Lemma span_eqb_spec a b : reflect (a = b) (span_eqb a b).
Proof.
  destruct a as [a a'], b as [b b']. unfold span_eqb. simpl.
  destruct (Nat.eqb_spec a b), (Nat.eqb_spec a' b'); simpl; constructor; congruence.
Qed.
Lemma existsb_span a l : existsb (span_eqb a) l = true <-> In a l.
Proof.
  rewrite existsb_exists. split.
  - intros (x & Hx & E). destruct (span_eqb_spec a x); [now subst|discriminate].
  - intros H. exists a. split; [easy|]. now destruct (span_eqb_spec a a).
Qed.
Lemma existsb_string n l : existsb (String.eqb n) l = true <-> In n l.
Proof.
  rewrite existsb_exists. split.
  - intros (x & Hx & E). apply String.eqb_eq in E. now subst.
  - intros H. exists n. split; [easy|]. apply String.eqb_refl.
Qed.
Lemma existsb_string_false n l : existsb (String.eqb n) l = false <-> ~ In n l.
Proof. rewrite <- existsb_string. destruct (existsb (String.eqb n) l); split; congruence. Qed.
Lemma dedup_in l a : In a (dedup l) <-> In a l.
Proof.
  induction l as [|b l IH]; simpl; [tauto|]. destruct (existsb (span_eqb b) l) eqn:E.
  - apply existsb_span in E. rewrite IH. split; [tauto|]. intros [<-|H]; tauto.
  - simpl. rewrite IH. tauto.
Qed.
Lemma dedup_nodup l : NoDup (dedup l).
Proof.
  induction l as [|b l IH]; simpl; [constructor|]. destruct (existsb (span_eqb b) l) eqn:E; [easy|].
  constructor; [|easy]. rewrite dedup_in. intros H. apply existsb_span in H. congruence.
Qed.
Lemma map_last_app {A} (f : A -> A) l a : map_last f (l ++ [a]) = Val (l ++ [f a]).
Proof.
  induction l as [|b l IH]; simpl; [reflexivity|].
  rewrite IH. destruct l; reflexivity.
Qed.
Lemma Forall2_app_inv {A B} (R : A -> B -> Prop) l1 l2 m1 m2 : Forall2 R l1 m1 -> Forall2 R l2 m2 -> Forall2 R (l1 ++ l2) (m1 ++ m2).
Proof. apply Forall2_app. Qed.
Lemma Forall2_imp {A B} (R Q : A -> B -> Prop) l m : (forall a b, R a b -> Q a b) -> Forall2 R l m -> Forall2 Q l m.
Proof. intros H F. induction F; constructor; auto. Qed.
Lemma Forall2_map_l {A B C} (R : A -> B -> Prop) (f : C -> A) l m : Forall2 (fun c b => R (f c) b) l m -> Forall2 R (map f l) m.
Proof. induction 1; simpl; constructor; auto. Qed.
Lemma Forall2_map_r {A B C} (R : A -> B -> Prop) (f : C -> B) l m : Forall2 (fun a c => R a (f c)) l m -> Forall2 R l (map f m).
Proof. induction 1; simpl; constructor; auto. Qed.

Lemma NoDup_app_intro {A} (l m : list A) : NoDup l -> NoDup m -> (forall x, In x l -> ~ In x m) -> NoDup (l ++ m).
Proof.
  induction l as [|a l IH]; simpl; intros Hl Hm H; [easy|]. inversion Hl; subst. constructor.
  - rewrite in_app_iff. intros [|]; [easy|]. revert H0. apply H. now left.
  - apply IH; auto.
Qed.

Lemma NoDup_app_remove' {A} (l m : list A) : NoDup (l ++ m) -> forall x, In x l -> ~ In x m.
Proof.
  induction l as [|a l IH]; simpl; intros H x; [easy|]. inversion H; subst. intros [<-|Hx]; [|now apply IH].
  intros Hm. apply H2. apply in_app_iff. now right.
Qed.
Lemma NoDup_app_r {A} (l m : list A) : NoDup (l ++ m) -> NoDup m.
Proof. induction l; simpl; [easy|]. intros H. inversion H; auto. Qed.
Lemma Forall2_len {A B} (R : A -> B -> Prop) l m : Forall2 R l m -> List.length l = List.length m.
Proof. induction 1; simpl; congruence. Qed.
Lemma Forall2_in_l_ex {A B} (R : A -> B -> Prop) l m a : Forall2 R l m -> In a l -> exists b, In b m /\ R a b.
Proof. induction 1; simpl; [easy|]. intros [<-|H1]; [eauto|]. destruct (IHForall2 H1) as (b & ? & ?). eauto. Qed.
Lemma Forall2_in_r_ex {A B} (R : A -> B -> Prop) l m b : Forall2 R l m -> In b m -> exists a, In a l /\ R a b.
Proof. induction 1; simpl; [easy|]. intros [<-|H1]; [eauto|]. destruct (IHForall2 H1) as (a & ? & ?). eauto. Qed.

Section B.
Variable text : span -> string.
Variable order : prod_build -> list prod_build -> list span -> list span.
Variable defs : bmap string span.
Hypothesis Ho : iterates order.

Notation tx a := (text (a_alias a)).
Notation single := (single text order defs).
Notation definition := (definition text defs).

(** ** [set_sub_aliases] on alias lists *)
Definition none_of (s : span) : item_alias := mkAlias s (Some false) 0 None false.
Definition sub1 (l : list item_alias) (name : span) : list item_alias :=
  match map_first (fun a => String.eqb (tx a) (text name)) (set_optional (Some true)) l with
  | Some l => l
  | None => l ++ [none_of name]
  end.
Lemma sub_alias_eq p name : sub_alias text p name = with_aliases p (sub1 (pb_aliases p) name).
Proof. unfold sub_alias, sub1. destruct (map_first _ _ _); reflexivity. Qed.
Lemma fold_sub_alias ns p : fold_left (sub_alias text) ns p = with_aliases p (fold_left sub1 ns (pb_aliases p)).
Proof.
  revert p. induction ns as [|n ns IH]; intros p; simpl.
  - destruct p; reflexivity.
  - rewrite IH, sub_alias_eq. reflexivity.
Qed.

Definition yes_if (t : string) (a : item_alias) : item_alias := if String.eqb (tx a) t then set_optional (Some true) a else a.
Lemma yes_if_alias t a : a_alias (yes_if t a) = a_alias a.
Proof. unfold yes_if. destruct (String.eqb _ _); reflexivity. Qed.
Lemma yes_if_id l t : ~ In t (map (fun a => tx a) l) -> map (yes_if t) l = l.
Proof.
  induction l as [|a l IH]; simpl; intros H; [reflexivity|]. rewrite IH by tauto. f_equal.
  unfold yes_if. destruct (String.eqb_spec (tx a) t); [tauto|reflexivity].
Qed.
Lemma sub1_found B L s : ~ In (text s) (map (fun a => tx a) B) -> NoDup (map (fun a => tx a) L) -> In (text s) (map (fun a => tx a) L) ->
  sub1 (B ++ L) s = B ++ map (yes_if (text s)) L.
Proof.
  intros HB N HL. unfold sub1.
  replace (map_first (fun a => String.eqb (tx a) (text s)) (set_optional (Some true)) (B ++ L)) with (Some (B ++ map (yes_if (text s)) L)); [reflexivity|].
  symmetry. induction B as [|b B IH]; simpl.
  - clear HB. induction L as [|a L IH]; simpl in *; [easy|]. inversion N as [|? ? Ha N']; subst.
    unfold yes_if at 1. destruct (String.eqb_spec (tx a) (text s)) as [E|E].
    + rewrite yes_if_id; [reflexivity|]. now rewrite <- E.
    + rewrite IH; [reflexivity|easy|]. destruct HL; [easy|easy].
  - simpl in HB. destruct (String.eqb_spec (tx b) (text s)) as [E|E]; [tauto|].
    rewrite IH by tauto. reflexivity.
Qed.
Lemma sub1_absent l s : ~ In (text s) (map (fun a => tx a) l) -> sub1 l s = l ++ [none_of s].
Proof.
  intros H. unfold sub1.
  replace (map_first (fun a => String.eqb (tx a) (text s)) (set_optional (Some true)) l) with (@None (list item_alias)); [reflexivity|].
  symmetry. induction l as [|b l IH]; simpl in *; [reflexivity|].
  destruct (String.eqb_spec (tx b) (text s)) as [E|E]; [tauto|]. now rewrite IH by tauto.
Qed.

(** names that are already there become [Some]; each of the others is added once as [None] *)
Lemma sub_fold N : forall B L,
  (forall s, In s N -> ~ In (text s) (map (fun a => tx a) B)) -> NoDup N -> NoDup (map (fun a => tx a) L) ->
  (forall s s', In s N -> In s' N -> text s = text s' -> s = s' \/ In (text s) (map (fun a => tx a) L)) ->
  fold_left sub1 N (B ++ L)
  = B ++ map (fun a => if existsb (String.eqb (tx a)) (names text N) then set_optional (Some true) a else a) L
      ++ map none_of (filter (fun s => negb (existsb (String.eqb (text s)) (map (fun a => tx a) L))) N).
Proof.
  induction N as [|s N IH]; intros B L HB HN HL HU; simpl.
  - rewrite map_id, app_nil_r. reflexivity.
  - inversion HN as [|? ? Hs HN']; subst.
    destruct (existsb (String.eqb (text s)) (map (fun a => tx a) L)) eqn:E; simpl.
    + apply existsb_string in E. rewrite sub1_found by (auto; apply HB; now left).
      assert (Et : map (fun a => tx a) (map (yes_if (text s)) L) = map (fun a => tx a) L).
      { rewrite map_map. apply map_ext. intros a. now rewrite yes_if_alias. }
      rewrite IH; try rewrite Et; auto.
      * rewrite map_map. f_equal. f_equal. apply map_ext. intros a. rewrite yes_if_alias.
        unfold yes_if. destruct (String.eqb_spec (tx a) (text s)); simpl; [|reflexivity].
        destruct (existsb _ (names text N)); reflexivity.
      * intros x Hx. apply HB. now right.
      * intros x x' Hx Hx'. apply HU; now right.
    + apply existsb_string_false in E.
      assert (Hu : forall x, In x N -> text x <> text s).
      { intros x Hx Ex. destruct (HU s x) as [->|H]; auto; [now left|now right]. }
      rewrite sub1_absent.
      2: { rewrite map_app, in_app_iff. intros [H|H]; [|easy]. revert H. apply HB. now left. }
      rewrite <- app_assoc. rewrite IH.
      * rewrite map_app. rewrite <- app_assoc. f_equal.
        assert (Ef : filter (fun x => negb (existsb (String.eqb (text x)) (map (fun a => tx a) (L ++ [none_of s])))) N
                   = filter (fun x => negb (existsb (String.eqb (text x)) (map (fun a => tx a) L))) N).
        { apply filter_ext_in. intros x Hx. rewrite map_app, existsb_app. simpl.
          destruct (String.eqb_spec (text x) (text s)) as [Ex|Ex]; [now apply Hu in Ex|]. now rewrite !orb_false_r. }
        rewrite Ef. f_equal.
        -- apply map_ext_in. intros a Ha. simpl. destruct (String.eqb_spec (tx a) (text s)) as [Ex|Ex]; [|reflexivity].
           exfalso. apply E. rewrite <- Ex. now apply (in_map (fun a => tx a)).
        -- simpl. replace (existsb (String.eqb (text s)) (names text N)) with false; [reflexivity|].
           symmetry. apply existsb_string_false. unfold names. rewrite in_map_iff. intros (x & Ex & Hx). now apply (Hu x).
      * intros x Hx. apply HB. now right.
      * easy.
      * rewrite map_app. apply NoDup_app_intro; [easy|repeat constructor; easy|]. intros t Ht [<-|[]]. easy.
      * intros x x' Hx Hx' Ex. destruct (HU x x') as [|H]; auto; try now right. right. rewrite map_app. apply in_app_iff. now left.
Qed.
(** ** places *)
Lemma place_app n e e' : place text n (e ++ e') = match place text n e with Some x => Some x | None => place text n e' end.
Proof. induction e as [|[a x] e IH]; simpl; [reflexivity|]. destruct (String.eqb _ _); auto. Qed.
Lemma place_none n e : (forall x, In x e -> text (fst x) <> n) -> place text n e = None.
Proof.
  induction e as [|[a x] e IH]; simpl; intros H; [reflexivity|].
  destruct (String.eqb_spec (text a) n) as [E|E]; [exfalso; apply (H (a, x)); auto|]. apply IH. auto.
Qed.
Lemma place_shift n k e : place text n (shift k e) = option_map (fun x => (fst x + k, option_map (fun f => f + k) (snd x))) (place text n e).
Proof. induction e as [|[a x] e IH]; simpl; [reflexivity|]. destruct (String.eqb _ _); auto. Qed.
Lemma shift_app k e e' : shift k (e ++ e') = shift k e ++ shift k e'.
Proof. apply map_app. Qed.
Lemma shift_shift k j e : shift k (shift j e) = shift (k + j) e.
Proof.
  unfold shift. rewrite map_map. apply map_ext. intros [a [i [f|]]]; simpl; now rewrite <- ?Nat.add_assoc, (Nat.add_comm j k).
Qed.
Lemma shift_0 e : shift 0 e = e.
Proof.
  unfold shift. rewrite <- (map_id e) at 2. apply map_ext. intros [a [i [f|]]]; simpl; now rewrite ?Nat.add_0_r.
Qed.
Lemma in_shift k e x : In x (shift k e) -> exists y, In y e /\ fst x = fst y.
Proof. unfold shift. rewrite in_map_iff. intros (y & <- & Hy). now exists y. Qed.

(** ** what one production build owes to the choices made *)
Definition fits (pl : list string) (e : env) (a : item_alias) : Prop :=
  match place text (tx a) e with
  | Some (i, f) => a_index a = i /\ a_final a = f /\ a_optional a = (if existsb (String.eqb (tx a)) pl then None else Some true)
  | None => a_optional a = Some false /\ existsb (String.eqb (tx a)) pl = false
  end.
Definition ali_ok (ps : list pat) (e : env) (L : list item_alias) : Prop :=
  NoDup (map (fun a => tx a) L) /\ (forall n, In n (map (fun a => tx a) L) <-> In n (pipe_names text ps)) /\
  (forall a, In a L -> In (a_alias a) (pipe_spans ps)) /\ forall a, In a L -> fits (plain text ps) e a.
Definition apart (l : list item_alias) (ps : list pat) : Prop := forall a, In a l -> ~ In (tx a) (pipe_names text ps).
Definition res_ok (prod : prod_build) (ps : list pat) (p : prod_build) (r : list span * env) : Prop :=
  pb_production p = pb_production prod ++ map definition (fst r) /\ pb_codeblock p = pb_codeblock prod /\ pb_ty p = pb_ty prod /\
  (forall x, In x (snd r) -> In (fst x) (pipe_spans ps)) /\
  (good text ps -> apart (pb_aliases prod) ps ->
   exists L, pb_aliases p = pb_aliases prod ++ L /\ ali_ok ps (shift (List.length (pb_production prod)) (snd r)) L).

Lemma good_cons p ps : good text (p :: ps) ->
  good text [p] /\ good text ps /\ forall n, In n (item_names text p) -> ~ In n (pipe_names text ps).
Proof.
  intros [H1 H2]. inversion H1 as [|? ? Hg Hgs]; subst. inversion H2 as [|? ? Hd Hds]; subst. repeat split; auto.
  - repeat constructor.
  - intros n Hn Hp. unfold pipe_names, pipe_spans, names in Hp. rewrite in_map_iff in Hp. destruct Hp as (s & <- & Hs).
    apply in_flat_map in Hs. destruct Hs as (q & Hq & Hs). rewrite Forall_forall in Hd. apply (Hd q Hq _ Hn).
    unfold item_names, names. now apply in_map.
Qed.
Lemma pipe_names_cons p ps : pipe_names text (p :: ps) = item_names text p ++ pipe_names text ps.
Proof. unfold pipe_names, pipe_spans, item_names, names. simpl. apply map_app. Qed.
Lemma pipe_names_one p : pipe_names text [p] = item_names text p.
Proof. rewrite pipe_names_cons. apply app_nil_r. Qed.
Lemma plain_names p n : In n (plain_item text p) -> In n (item_names text p).
Proof. destruct p as [s [|] [a|] c|vs [|] [a|] c]; simpl; intuition. Qed.
Lemma plain_pipe_names ps n : In n (plain text ps) -> In n (pipe_names text ps).
Proof.
  induction ps as [|p ps IH]; simpl; [easy|]. rewrite pipe_names_cons, !in_app_iff. intros [H|H]; [left; now apply plain_names|right; auto].
Qed.

Lemma res_ok_app prod p ps p1 p2 r1 r2 : res_ok prod [p] p1 r1 -> res_ok p1 ps p2 r2 -> res_ok prod (p :: ps) p2 (run_app r1 r2).
Proof.
  intros (A1 & A2 & A3 & A4 & A5) (B1 & B2 & B3 & B4 & B5).
  assert (N1 : forall x, In x (snd r1) -> In (text (fst x)) (item_names text p)).
  { intros x Hx. apply A4 in Hx. simpl in Hx. rewrite app_nil_r in Hx. unfold item_names, names. now apply in_map. }
  assert (N2 : forall x, In x (snd r2) -> In (text (fst x)) (pipe_names text ps)).
  { intros x Hx. apply B4 in Hx. unfold pipe_names, names. now apply in_map. }
  unfold run_app. split; [|split; [|split; [|split]]]; simpl.
  - now rewrite B1, A1, map_app, app_assoc.
  - congruence.
  - congruence.
  - intros x Hx. apply in_app_iff in Hx. unfold pipe_spans. simpl. apply in_app_iff. destruct Hx as [Hx|Hx].
    + left. apply A4 in Hx. simpl in Hx. now rewrite app_nil_r in Hx.
    + right. apply in_shift in Hx. destruct Hx as (y & Hy & ->). now apply B4.
  - intros G Hap. destruct (good_cons _ _ G) as (G1 & G2 & Gd).
    destruct A5 as (L1 & E1 & U1 & M1 & S1 & F1); [easy| |].
    { intros a Ha Hn. apply (Hap a Ha). rewrite pipe_names_one in Hn. rewrite pipe_names_cons. apply in_app_iff. now left. }
    destruct B5 as (L2 & E2 & U2 & M2 & S2 & F2); [easy| |].
    { intros a Ha Hn. rewrite E1 in Ha. apply in_app_iff in Ha. destruct Ha as [Ha|Ha].
      - apply (Hap a Ha). rewrite pipe_names_cons. apply in_app_iff. now right.
      - apply (Gd (tx a)); [|easy]. rewrite <- pipe_names_one. apply M1. now apply (in_map (fun a => tx a)). }
    exists (L1 ++ L2). split; [now rewrite E2, E1, app_assoc|]. split; [|split; [|split]].
    + rewrite map_app. apply NoDup_app_intro; auto. intros n Hn Hn'. apply M1 in Hn. apply M2 in Hn'.
      rewrite pipe_names_one in Hn. now apply (Gd n).
    + intros n. rewrite map_app, in_app_iff, M1, M2, pipe_names_one, pipe_names_cons, in_app_iff. reflexivity.
    + intros a Ha. unfold pipe_spans. simpl. apply in_app_iff in Ha. apply in_app_iff. destruct Ha as [Ha|Ha].
      * left. apply S1 in Ha. simpl in Ha. now rewrite app_nil_r in Ha.
      * right. now apply S2.
    + intros a Ha. apply in_app_iff in Ha. destruct Ha as [Ha|Ha].
      * assert (Hn : In (tx a) (item_names text p)) by (rewrite <- pipe_names_one; apply M1; now apply (in_map (fun a => tx a))).
        specialize (F1 a Ha). unfold fits in *. rewrite shift_app, place_app.
        rewrite (place_none (tx a) (shift (List.length (pb_production prod)) (shift (List.length (fst r1)) (snd r2)))).
        2: { intros x Hx E. apply in_shift in Hx. destruct Hx as (y & Hy & Ex). apply in_shift in Hy. destruct Hy as (z & Hz & Ey).
             apply N2 in Hz. apply (Gd (tx a) Hn). now rewrite <- E, Ex, Ey. }
        assert (Ep : existsb (String.eqb (tx a)) (plain text (p :: ps)) = existsb (String.eqb (tx a)) (plain text [p])).
        { simpl. rewrite existsb_app, app_nil_r. replace (existsb (String.eqb (tx a)) (plain text ps)) with false; [apply orb_false_r|].
          symmetry. apply existsb_string_false. intros H. apply plain_pipe_names in H. now apply (Gd (tx a)). }
        rewrite Ep. destruct (place text (tx a) _) as [[i f]|]; [easy|easy].
      * assert (Hn : In (tx a) (pipe_names text ps)) by (apply M2; now apply (in_map (fun a => tx a))).
        specialize (F2 a Ha). unfold fits in *. rewrite shift_app, place_app.
        rewrite (place_none (tx a) (shift (List.length (pb_production prod)) (snd r1))).
        2: { intros x Hx E. apply in_shift in Hx. destruct Hx as (y & Hy & Ex). apply N1 in Hy. apply (Gd (text (fst y)) Hy).
             now rewrite <- Ex, E. }
        rewrite shift_shift. rewrite A1, app_length, map_length in F2.
        assert (Ep : existsb (String.eqb (tx a)) (plain text (p :: ps)) = existsb (String.eqb (tx a)) (plain text ps)).
        { simpl. rewrite existsb_app. replace (existsb (String.eqb (tx a)) (plain_item text p)) with false; [reflexivity|].
          symmetry. apply existsb_string_false. intros H. apply plain_names in H. now apply (Gd (tx a)). }
        rewrite Ep. exact F2.
Qed.

Lemma res_ok_nil prod : res_ok prod [] prod ([], []).
Proof.
  split; [|split; [|split; [|split]]]; simpl; [now rewrite app_nil_r|easy|easy|easy|].
  intros _ _. exists []. rewrite app_nil_r. repeat split; auto; try easy. constructor.
Qed.

(** ** the rest of a pipe, behind each of several builds *)
Definition single_ok (n : nat) (gs : list gramem) (ps : list pat) : Prop :=
  forall prod, exists out, single n prod gs = Val out /\ out <> [] /\ Forall2 (res_ok prod ps) out (runs ps).

Lemma many_eq n gs origin : 
  match gs with [] => Val origin | _ => do l <- mapM (fun o => single (S n) o gs) origin; Val (List.concat l) end
  = (do l <- mapM (fun o => single (S n) o gs) origin; Val (List.concat l)).
Proof.
  destruct gs; [|reflexivity].
  assert (E : mapM (fun o => single (S n) o []) origin = Val (map (fun o => [o]) origin)).
  { induction origin as [|o l IH]; [reflexivity|]. cbn [mapM]. rewrite IH. reflexivity. }
  rewrite E. cbn [bind]. f_equal. clear E. induction origin as [|o l IH]; simpl; [reflexivity|]. now rewrite <- IH.
Qed.

Lemma many_ok n gs p ps prod origin rs : single_ok (S n) gs ps -> Forall2 (res_ok prod [p]) origin rs ->
  exists out, match gs with [] => Val origin | _ => do l <- mapM (fun o => single (S n) o gs) origin; Val (List.concat l) end = Val out
    /\ (origin <> [] -> out <> []) /\ Forall2 (res_ok prod (p :: ps)) out (flat_map (fun r => map (run_app r) (runs ps)) rs).
Proof.
  intros Hs F. rewrite many_eq.
  assert (H : exists ll, mapM (fun o => single (S n) o gs) origin = Val ll /\ (origin <> [] -> List.concat ll <> [])
    /\ Forall2 (res_ok prod (p :: ps)) (List.concat ll) (flat_map (fun r => map (run_app r) (runs ps)) rs)).
  { induction F as [|o r l rs Hor F IH].
    - exists []. cbn. repeat split; auto; constructor.
    - destruct (Hs o) as (out & E & Ne & Fo). destruct IH as (ll & El & _ & Fl).
      exists (out :: ll). cbn [mapM]. rewrite E. cbn [bind]. rewrite El. cbn [bind]. split; [reflexivity|]. split.
      + intros _. simpl. destruct out; easy.
      + simpl. apply Forall2_app; [|easy]. apply Forall2_map_r. eapply Forall2_imp; [|exact Fo].
        intros p2 r2 H2. eapply res_ok_app; eauto. }
  destruct H as (ll & E & Ne & Fl). exists (List.concat ll). rewrite E. auto.
Qed.

(** ** the alias of an item itself *)
Definition tail (al : option span) (ob : option bool) (i : nat) (f : option nat) (c : bool) : list item_alias :=
  match al with Some a => [mkAlias a ob i f c] | None => [] end.
Lemma with_aliases_id p : with_aliases p (pb_aliases p) = p.
Proof. now destruct p. Qed.
Lemma push_own prod al ob c :
  match al with Some a => push_alias prod (mkAlias a ob 0 None c) | None => prod end
  = with_aliases prod (pb_aliases prod ++ tail al ob (List.length (pb_production prod)) None c).
Proof. destruct al; simpl; [reflexivity|]. now rewrite app_nil_r, with_aliases_id. Qed.
Lemma last_own (al : option span) B ob i f c g : 
  (match al with Some _ => map_last g (B ++ tail al ob i f c) | None => Val (B ++ tail al ob i f c) end)
  = Val (B ++ map g (tail al ob i f c)).
Proof. destruct al; simpl; [apply map_last_app|reflexivity]. Qed.
Lemma tail_span al ob i f c a : In a (tail al ob i f c) -> al = Some (a_alias a).
Proof. destruct al; simpl; [|easy]. now intros [<-|[]]. Qed.
Lemma tail_alias al ob i f c ob' i' f' c' : map a_alias (tail al ob i f c) = map a_alias (tail al ob' i' f' c').
Proof. now destruct al. Qed.

(** ** symbols *)
Lemma ali_own p e al ob i f c : alias_spans p = (match al with Some a => [a] | None => [] end) ->
  (forall a, In a (tail al ob i f c) -> fits (plain text [p]) e a) -> ali_ok [p] e (tail al ob i f c).
Proof.
  intros E H. split; [|split; [|split]]; auto.
  - destruct al; simpl; repeat constructor; easy.
  - intros n. rewrite pipe_names_one. unfold item_names, names. rewrite E. destruct al; reflexivity.
  - intros a Ha. simpl. rewrite app_nil_r, E. apply tail_span in Ha. rewrite Ha. now left.
Qed.
Lemma sym_kept prod s (o : bool) al c :
  let prod1 := with_aliases prod (pb_aliases prod ++ tail al (if o then Some true else None) (List.length (pb_production prod)) None c) in
  res_ok prod [PSym s o al c] (with_production prod1 (pb_production prod1 ++ [definition s])) ([s], at_own al None).
Proof.
  split; [|split; [|split; [|split]]]; simpl; try easy.
  - destruct al; simpl; [|easy]. intros x [<-|[]]. now left.
  - intros _ _. exists (tail al (if o then Some true else None) (List.length (pb_production prod)) None c). split; [easy|].
    apply ali_own; [easy|]. intros a Ha. destruct al as [b|]; simpl in Ha; [|easy]. destruct Ha as [<-|[]].
    unfold fits. simpl. rewrite String.eqb_refl. repeat split. destruct o; simpl; [reflexivity|]. now rewrite String.eqb_refl.
Qed.
Lemma sym_dropped prod s al c f :
  res_ok prod [PSym s true al c] (with_aliases prod (pb_aliases prod ++ tail al (Some false) (List.length (pb_production prod)) f c)) ([], []).
Proof.
  split; [|split; [|split; [|split]]]; simpl; try easy.
  - now rewrite app_nil_r.
  - intros _ _. exists (tail al (Some false) (List.length (pb_production prod)) f c). split; [easy|].
    apply ali_own; [easy|]. intros a Ha. destruct al as [b|]; simpl in Ha; [|easy]. destruct Ha as [<-|[]]. easy.
Qed.

(** ** the [None] aliases of a dropped group *)
Definition miss1 (c : bool) (l : list item_alias) (a : item_alias) : list item_alias :=
  if existsb (fun b => span_eqb (a_alias b) (a_alias a)) l then l else l ++ [mkAlias (a_alias a) (Some false) 0 None c].
Lemma add_missing_fold c X p : fold_left (add_missing c) X p = with_aliases p (fold_left (miss1 c) X (pb_aliases p)).
Proof.
  revert p. induction X as [|a X IH]; intros p; simpl; [now rewrite with_aliases_id|].
  rewrite IH. unfold add_missing, miss1. destruct (existsb _ _); reflexivity.
Qed.
Lemma has_span l a : existsb (fun b => span_eqb (a_alias b) (a_alias a)) l = true <-> In (a_alias a) (map a_alias l).
Proof.
  rewrite existsb_exists, in_map_iff. split; intros (b & H1 & H2); exists b; split; auto.
  - now destruct (span_eqb_spec (a_alias b) (a_alias a)).
  - now destruct (span_eqb_spec (a_alias b) (a_alias a)).
Qed.
Lemma miss_skip c X l : (forall a, In a X -> In (a_alias a) (map a_alias l)) -> fold_left (miss1 c) X l = l.
Proof.
  induction X as [|a X IH]; simpl; intros H; [reflexivity|].
  unfold miss1 at 2. rewrite (proj2 (has_span l a)) by auto. auto.
Qed.
Lemma miss_add c X : forall l, NoDup (map a_alias X) -> (forall a, In a X -> ~ In (a_alias a) (map a_alias l)) ->
  fold_left (miss1 c) X l = l ++ map (fun a => mkAlias (a_alias a) (Some false) 0 None c) X.
Proof.
  induction X as [|a X IH]; simpl; intros l N H; [now rewrite app_nil_r|]. inversion N as [|? ? Ha N']; subst.
  unfold miss1 at 2. destruct (existsb _ l) eqn:E; [apply has_span in E; exfalso; apply (H a); auto|].
  rewrite IH; auto.
  - now rewrite <- app_assoc.
  - intros b Hb. rewrite map_app, in_app_iff. simpl. intros [Hc|[Hc|[]]].
    + revert Hc. now apply H; right.
    + apply Ha. rewrite Hc. now apply in_map.
Qed.

(** ** groups *)
Lemma group_span vs o al c s : In s (pipe_spans [PGroup vs o al c]) <-> al = Some s \/ exists v, In v vs /\ In s (pipe_spans (fst v)).
Proof.
  unfold pipe_spans at 1. simpl. rewrite app_nil_r, in_app_iff, in_flat_map. destruct al as [a|]; simpl.
  - split; [intros [[<-|[]]|H]; auto|intros [[= <-]|H]; auto].
  - split; [intros [[]|H]; auto|intros [[=]|H]; auto].
Qed.

Section Group.
Variables (prod : prod_build) (vs : list (list pat * span)) (o : bool) (al : option span) (c : bool).
Notation off := (List.length (pb_production prod)).
Notation ob := (if o then Some true else None).
Notation base f := (with_aliases prod (pb_aliases prod ++ tail al ob off f c)).
Variable news : list prod_build.
Definition branch (p : prod_build) (x : (list pat * span) * (list span * env)) : Prop :=
  In (fst x) vs /\ In (snd x) (runs (fst (fst x))) /\ res_ok (base (Some (off + List.length (fst (fst x))))) (fst (fst x)) p (snd x).
Hypothesis Hnews : Forall2 branch news (flat_map (fun v => map (pair v) (runs (fst v))) vs).
Hypothesis Hruns : forall v, In v vs -> runs (fst v) <> [].
Variable f' : option nat.

Notation N := (order (base f') news (filter (fun s => negb (existsb (span_eqb s) (map a_alias (pb_aliases (base f')))))
  (dedup (map a_alias (flat_map pb_aliases news))))).

Lemma sub_eq : set_sub_aliases text order (base f') news = map (fun p => with_aliases p (fold_left sub1 N (pb_aliases p))) news.
Proof. unfold set_sub_aliases. apply map_ext. intros p. apply fold_sub_alias. Qed.

Lemma in_N s : In s N <-> ~ In s (map a_alias (pb_aliases prod ++ tail al ob off f' c)) /\ exists p a, In p news /\ In a (pb_aliases p) /\ a_alias a = s.
Proof.
  assert (E : In s N <-> In s (filter (fun s => negb (existsb (span_eqb s) (map a_alias (pb_aliases (base f'))))) (dedup (map a_alias (flat_map pb_aliases news))))).
  { split; apply Permutation_in; [|symmetry]; apply Ho. }
  rewrite E, filter_In, dedup_in, negb_true_iff, in_map_iff. split.
  - intros [(a & Ea & Ha) Hb]. apply in_flat_map in Ha. destruct Ha as (p & Hp & Ha). split; [|exists p, a; auto].
    intros H. apply existsb_span in H. simpl in Hb. congruence.
  - intros [Hb (p & a & Hp & Ha & Ea)]. split.
    + exists a. split; [easy|]. apply in_flat_map. eauto.
    + destruct (existsb _ _) eqn:Ex; [|reflexivity]. apply existsb_span in Ex. easy.
Qed.
Lemma nodup_N : NoDup N.
Proof. eapply Permutation_NoDup; [symmetry; apply Ho|]. apply NoDup_filter, dedup_nodup. Qed.

Section Good.
Hypothesis G : good text [PGroup vs o al c].
Hypothesis Hap : apart (pb_aliases prod) [PGroup vs o al c].

Lemma G_all : 
  (forall v, In v vs -> good text (fst v)) /\
  (forall v n w e, In v vs -> In n (pipe_names text (fst v)) -> In (w, e) (runs (fst v)) -> place text n e <> None) /\
  (forall v v' s s', In v vs -> In v' vs -> In s (pipe_spans (fst v)) -> In s' (pipe_spans (fst v')) -> text s = text s' ->
     s = s' \/ forall v'', In v'' vs -> In (text s) (pipe_names text (fst v''))) /\
  (forall b v w, al = Some b -> In v vs -> In w (expand (fst v)) -> List.length w = List.length (fst v)) /\
  (forall b v, al = Some b -> In v vs -> ~ In (text b) (pipe_names text (fst v))).
Proof.
  destruct G as [G1 _]. inversion G1 as [|? ? G2 _]; subst. inversion G2 as [|? ? ? ? K1 K2 K3 K4 K5]; subst. split; [|auto].
  intros v Hv. destruct (K1 v Hv). now split.
Qed.

Lemma group_names v n : In v vs -> In n (pipe_names text (fst v)) -> In n (pipe_names text [PGroup vs o al c]).
Proof.
  intros Hv H. unfold pipe_names, names in *. rewrite in_map_iff in H. destruct H as (s & <- & Hs). apply in_map.
  unfold pipe_spans. simpl. rewrite app_nil_r. apply in_app_iff. right. apply in_flat_map. now exists v.
Qed.
Lemma group_own b : al = Some b -> In (text b) (pipe_names text [PGroup vs o al c]).
Proof. intros ->. unfold pipe_names, pipe_spans, names. simpl. now left. Qed.
Lemma base_apart v f : In v vs -> apart (pb_aliases (base f)) (fst v).
Proof.
  intros Hv a Ha Hn. simpl in Ha. apply in_app_iff in Ha. destruct Ha as [Ha|Ha].
  - apply (Hap a Ha). now apply group_names with v.
  - apply tail_span in Ha. destruct G_all as (_ & _ & _ & _ & H). now apply (H (a_alias a) v).
Qed.

Lemma branch_list p x : branch p x -> exists L, 
  pb_aliases p = pb_aliases prod ++ tail al ob off (Some (off + List.length (fst (fst x)))) c ++ L /\ ali_ok (fst (fst x)) (shift off (snd (snd x))) L.
Proof.
  intros (Hv & Hr & R1 & R2 & R3 & R4 & R5). destruct R5 as (L & E & H).
  - apply G_all. exact Hv.
  - now apply base_apart.
  - exists L. split; [simpl in E; now rewrite E, <- app_assoc|exact H].
Qed.

Lemma N_inner s : In s N -> exists v, In v vs /\ In s (pipe_spans (fst v)).
Proof.
  rewrite in_N. intros (Hb & p & a & Hp & Ha & <-).
  destruct (Forall2_in_l_ex _ _ _ _ Hnews Hp) as (x & Hx & B). pose proof B as (Hv & _).
  destruct (branch_list p x B) as (L & E & (_ & _ & S & _)).
  rewrite E in Ha. rewrite app_assoc in Ha. apply in_app_iff in Ha. destruct Ha as [Ha|Ha].
  - exfalso. apply Hb. rewrite map_app in *. rewrite (tail_alias al ob off f' c ob off (Some (off + List.length (fst (fst x)))) c).
    rewrite <- map_app. now apply in_map.
  - exists (fst x). split; [easy|]. now apply S.
Qed.
Lemma N_all p x L a : In p news -> branch p x -> ali_ok (fst (fst x)) (shift off (snd (snd x))) L ->
  pb_aliases p = pb_aliases prod ++ tail al ob off (Some (off + List.length (fst (fst x)))) c ++ L -> In a L -> In (a_alias a) N.
Proof.
  intros Hp (Hv & _) (_ & M & _) E Ha. apply in_N. split.
  - intros H. apply in_map_iff in H. destruct H as (b & Eb & Hb). apply (base_apart (fst x) f' Hv b Hb).
    rewrite Eb. apply M. now apply (in_map (fun a => tx a)).
  - exists p, a. repeat split; auto. rewrite E. apply in_app_iff. right. apply in_app_iff. now right.
Qed.

Lemma kept p x : In p news -> branch p x -> exists L1,
  fold_left sub1 N (pb_aliases p) = pb_aliases prod ++ tail al ob off (Some (off + List.length (fst (fst x)))) c ++ L1 /\
  ali_ok [PGroup vs o al c] (shift off (at_own al (Some (List.length (fst (snd x)))) ++ snd (snd x)))
    (tail al ob off (Some (off + List.length (fst (fst x)))) c ++ L1).
Proof.
  intros Hp B. destruct (branch_list p x B) as (L & E & A). pose proof A as (U & M & Sp & F).
  pose proof (fun a => N_all p x L a Hp B A E) as HN. destruct B as (Hv & Hr & R1 & R2 & R3 & R4 & R5).
  destruct G_all as (Gv & Gp & Gu & Gl & Go).
  destruct x as [v r]. simpl fst in *. simpl snd in *.
  set (T := tail al ob off (Some (off + List.length (fst v))) c) in *.
  assert (Hown : forall a, In a T -> al = Some (a_alias a)) by (intros a; apply tail_span).
  assert (HB : forall s, In s N -> ~ In (text s) (map (fun a => tx a) (pb_aliases prod ++ T))).
  { intros s Hs H. apply N_inner in Hs. destruct Hs as (v' & Hv' & Hs). rewrite in_map_iff in H. destruct H as (a & Ea & Ha).
    apply (base_apart v' (Some (off + List.length (fst v))) Hv' a Ha). rewrite Ea. unfold pipe_names, names. now apply in_map. }
  assert (HU : forall s s', In s N -> In s' N -> text s = text s' -> s = s' \/ In (text s) (map (fun a => tx a) L)).
  { intros s s' Hs Hs' Et. apply N_inner in Hs. apply N_inner in Hs'. destruct Hs as (u & Hu & Hs), Hs' as (u' & Hu' & Hs').
    destruct (Gu u u' s s') as [|H]; auto. right. apply M. auto. }
  exists (map (set_optional (Some true)) L ++ map none_of (filter (fun s => negb (existsb (String.eqb (text s)) (map (fun a => tx a) L))) N)).
  split.
  { rewrite E, app_assoc, sub_fold by (auto; apply nodup_N). rewrite <- app_assoc. do 3 f_equal.
    apply map_ext_in. intros a Ha. replace (existsb (String.eqb (tx a)) (names text N)) with true; [reflexivity|].
    symmetry. apply existsb_string. unfold names. apply in_map. auto. }
  set (Z := filter _ N).
  assert (HZ : forall s, In s Z -> In s N /\ ~ In (text s) (map (fun a => tx a) L)).
  { intros s Hs. apply filter_In in Hs. destruct Hs as [Hs H]. split; [easy|]. now apply negb_true_iff, existsb_string_false in H. }
  assert (EL : map (fun a => tx a) (map (set_optional (Some true)) L) = map (fun a => tx a) L) by (rewrite map_map; reflexivity).
  assert (EZ : map (fun a => tx a) (map none_of Z) = map text Z) by (rewrite map_map; reflexivity).
  assert (Hrest : forall n, In n (map (fun a => tx a) (map (set_optional (Some true)) L ++ map none_of Z)) -> exists v, In v vs /\ In n (pipe_names text (fst v))).
  { intros n. rewrite map_app, in_app_iff, EL, EZ. intros [H|H].
    - exists v. split; [easy|]. now apply M.
    - rewrite in_map_iff in H. destruct H as (s & <- & Hs). apply HZ in Hs. destruct Hs as [Hs _]. apply N_inner in Hs.
      destruct Hs as (u & Hu & Hs). exists u. split; [easy|]. unfold pipe_names, names. now apply in_map. }
  assert (Hne : forall a n, In a T -> (exists v, In v vs /\ In n (pipe_names text (fst v))) -> tx a <> n).
  { intros a n Ha (u & Hu & Hn) <-. apply Hown in Ha. now apply (Go (a_alias a) u). }
  split; [|split; [|split]].
  - rewrite map_app. apply NoDup_app_intro.
    + unfold T. destruct al; simpl; repeat constructor; easy.
    + rewrite map_app, EL, EZ. apply NoDup_app_intro; auto.
      * assert (NZ : NoDup Z) by apply NoDup_filter, nodup_N. clear - NZ HZ HU. induction Z as [|s Z IH]; simpl; [constructor|].
        inversion NZ; subst. constructor; [|apply IH; auto; intros; apply HZ; now right].
        rewrite in_map_iff. intros (s' & Es & Hs'). destruct (HU s s') as [->|H]; auto; try easy.
        -- apply HZ. now left.
        -- apply HZ. now right.
        -- apply (HZ s); [now left|easy].
      * intros n Hn Hz. rewrite in_map_iff in Hz. destruct Hz as (s & <- & Hs). now apply (HZ s).
    + intros n Hn Hr'. rewrite in_map_iff in Hn. destruct Hn as (a & <- & Ha). apply Hrest in Hr'. now apply (Hne a (tx a)).
  - intros n. rewrite map_app, in_app_iff. split.
    + intros [H|H].
      * rewrite in_map_iff in H. destruct H as (a & <- & Ha). apply group_own. now apply Hown.
      * apply Hrest in H. destruct H as (u & Hu & Hn). now apply group_names with u.
    + intros H. unfold pipe_names, names in H. rewrite in_map_iff in H. destruct H as (s & <- & Hs). apply group_span in Hs.
      destruct Hs as [Ha|(u & Hu & Hs)].
      * left. unfold T. rewrite Ha. now left.
      * right. rewrite map_app, in_app_iff, EL, EZ.
        destruct (existsb (String.eqb (text s)) (map (fun a => tx a) L)) eqn:Ex; [apply existsb_string in Ex; now left|]. right.
        (* some branch of [u] carries the name *)
        pose proof (Hruns u Hu) as Hne'. destruct (runs (fst u)) as [|r' rs] eqn:Er; [easy|]. 
        assert (Hin : In (u, r') (flat_map (fun v => map (pair v) (runs (fst v))) vs)).
        { apply in_flat_map. exists u. split; [easy|]. rewrite Er. now left. }
        destruct (Forall2_in_r_ex _ _ _ _ Hnews Hin) as (p' & Hp' & B').
        destruct (branch_list p' _ B') as (L' & E' & A'). pose proof A' as (_ & M' & _).
        assert (Hn : In (text s) (map (fun a => tx a) L')) by (apply M'; unfold pipe_names, names; now apply in_map).
        rewrite in_map_iff in Hn. destruct Hn as (a & Ea & Ha). rewrite <- Ea. apply in_map.
        unfold Z. apply filter_In. split; [now apply (N_all p' _ L' a Hp' B' A' E')|].
        rewrite Ea. now rewrite Ex.
  - intros a Ha. apply in_app_iff in Ha. apply group_span. destruct Ha as [Ha|Ha]; [left; auto|right].
    apply in_app_iff in Ha. destruct Ha as [Ha|Ha]; rewrite in_map_iff in Ha.
    + destruct Ha as (b & <- & Hb). exists v. split; [easy|]. exact (Sp b Hb).
    + destruct Ha as (s & <- & Hs). apply HZ in Hs. now apply N_inner.
  - assert (Hpl : forall n, (exists v, In v vs /\ In n (pipe_names text (fst v))) -> existsb (String.eqb n) (plain text [PGroup vs o al c]) = false).
    { intros n (u & Hu & Hn). apply existsb_string_false. intros H. simpl in H. destruct o, al as [b|]; simpl in H; try easy.
      destruct H as [<-|[]]. now apply (Go b u). }
    assert (Hpo : forall n, (exists v, In v vs /\ In n (pipe_names text (fst v))) -> 
       place text n (shift off (at_own al (Some (List.length (fst r))) ++ snd r)) = place text n (shift off (snd r))).
    { intros n (u & Hu & Hn). rewrite shift_app, place_app, (place_none n (shift off (at_own al _))); [reflexivity|].
      intros y Hy E'. apply in_shift in Hy. destruct Hy as (z & Hz & Ez). destruct al as [b|]; simpl in Hz; [|easy].
      destruct Hz as [<-|[]]. simpl in Ez. apply (Go b u); auto. now rewrite <- Ez, E'. }
    intros a Ha. apply in_app_iff in Ha. destruct Ha as [Ha|Ha].
    + unfold T in Ha. destruct al as [b|] eqn:Eal; simpl in Ha; [|easy]. destruct Ha as [<-|[]]. unfold fits. simpl.
      assert (El : List.length (fst r) = List.length (fst v)) by (apply (Gl b v (fst r)); auto; rewrite <- runs_expand; now apply in_map).
      rewrite String.eqb_refl. split; [reflexivity|]. split.
      * rewrite El. f_equal. apply Nat.add_comm.
      * destruct o; simpl; [reflexivity|]. now rewrite String.eqb_refl.
    + apply in_app_iff in Ha. destruct Ha as [Ha|Ha]; rewrite in_map_iff in Ha.
      * destruct Ha as (b & <- & Hb).
        assert (Hn : In (tx b) (pipe_names text (fst v))) by (apply M; now apply (in_map (fun a => tx a))).
        specialize (F b Hb). unfold fits in *. simpl a_alias. rewrite Hpo, Hpl by eauto.
        destruct (place text (tx b) (shift off (snd r))) as [[i f]|] eqn:Ep.
        -- destruct F as (F1 & F2 & F3). repeat split; auto.
        -- exfalso. rewrite place_shift in Ep. destruct r as [w e]. apply (Gp v (tx b) w e Hv Hn Hr).
           simpl in Ep. now destruct (place text (tx b) e).
      * destruct Ha as (s & <- & Hs). apply HZ in Hs. destruct Hs as [Hs Hnl]. apply N_inner in Hs. destruct Hs as (u & Hu & Hs).
        assert (Hn : In (text s) (pipe_names text (fst u))) by (unfold pipe_names, names; now apply in_map).
        unfold fits. simpl a_alias. rewrite Hpo, Hpl by eauto.
        rewrite place_none; [easy|]. intros y Hy Ey. apply in_shift in Hy. destruct Hy as (z & Hz & Ez).
        apply Hnl. apply M. rewrite <- Ey, Ez. unfold pipe_names, names. apply in_map. now apply R4.
Qed.
End Good.

Lemma group_kept p x : In p news -> branch p x ->
  res_ok prod [PGroup vs o al c] (with_aliases p (fold_left sub1 N (pb_aliases p)))
    (fst (snd x), at_own al (Some (List.length (fst (snd x)))) ++ snd (snd x)).
Proof.
  intros Hp B. pose proof B as (Hv & Hr & R1 & R2 & R3 & R4 & R5).
  split; [|split; [|split; [|split]]]; simpl; auto.
  - intros y Hy. change (In (fst y) (pipe_spans [PGroup vs o al c])). rewrite group_span. apply in_app_iff in Hy. destruct Hy as [Hy|Hy].
    + left. clear - Hy. destruct al; simpl in Hy; [|easy]. now destruct Hy as [<-|[]].
    + right. exists (fst x). split; [easy|]. now apply R4.
  - intros G Hap. destruct (kept G Hap p x Hp B) as (L1 & E & A). eexists. split; [exact E|exact A].
Qed.

Lemma group_dropped p rest : o = true -> news = p :: rest ->
  let p0 := with_aliases p (fold_left sub1 N (pb_aliases p)) in
  res_ok prod [PGroup vs o al c]
    (fold_left (add_missing c) (pb_aliases p0) (with_aliases prod (pb_aliases prod ++ tail al (Some false) off f' c))) ([], []).
Proof.
  intros Eo En p0. rewrite add_missing_fold.
  split; [|split; [|split; [|split]]]; simpl; try easy.
  - now rewrite app_nil_r.
  - intros G Hap. assert (Hp : In p news) by (rewrite En; now left).
    destruct (Forall2_in_l_ex _ _ _ _ Hnews Hp) as (x & _ & B).
    destruct (kept G Hap p x Hp B) as (L1 & E & (U & M & Sp & F)). simpl.
    match goal with |- context[fold_left sub1 ?X (pb_aliases p)] => change (fold_left sub1 X (pb_aliases p)) with (fold_left sub1 N (pb_aliases p)) end.
    rewrite E.
    rewrite app_assoc, fold_left_app.
    rewrite (miss_skip c (pb_aliases prod ++ tail al ob off (Some (off + List.length (fst (fst x)))) c)).
    2: { intros a Ha. rewrite map_app, (tail_alias al (Some false) off f' c ob off (Some (off + List.length (fst (fst x)))) c), <- map_app. now apply in_map. }
    assert (NA : forall l : list item_alias, NoDup (map (fun a => tx a) l) -> NoDup (map a_alias l)).
    { intros l H. rewrite <- (map_map a_alias text) in H. now apply NoDup_map_inv in H. }
    assert (ND : forall a, In a L1 -> ~ In (tx a) (map (fun a => tx a) (tail al ob off (Some (off + List.length (fst (fst x)))) c))).
    { intros a Ha H. rewrite map_app in U. apply (NoDup_app_remove' _ _ U (tx a) H). now apply (in_map (fun a => tx a)). }
    rewrite miss_add.
    + exists (tail al (Some false) off f' c ++ map (fun a => mkAlias (a_alias a) (Some false) 0 None c) L1).
      split; [now rewrite app_assoc|].
      assert (Et : map (fun a => tx a) (tail al (Some false) off f' c ++ map (fun a => mkAlias (a_alias a) (Some false) 0 None c) L1)
                 = map (fun a => tx a) (tail al ob off (Some (off + List.length (fst (fst x)))) c ++ L1)).
      { rewrite !map_app, map_map. f_equal. now destruct al. }
      split; [|split; [|split]].
      * now rewrite Et.
      * intros n. now rewrite Et.
      * intros a Ha. apply in_app_iff in Ha. destruct Ha as [Ha|Ha].
        -- apply group_span. left. now apply tail_span in Ha.
        -- rewrite in_map_iff in Ha. destruct Ha as (b & <- & Hb). apply (Sp b). apply in_app_iff. now right.
      * intros a Ha. unfold fits. simpl. rewrite Eo. simpl. split; [|now destruct al].
        apply in_app_iff in Ha. destruct Ha as [Ha|Ha].
        -- destruct al; simpl in Ha; [|easy]. now destruct Ha as [<-|[]].
        -- rewrite in_map_iff in Ha. now destruct Ha as (b & <- & Hb).
    + apply NA. rewrite map_app in U. now apply NoDup_app_r in U.
    + intros a Ha. rewrite map_app, in_app_iff. intros [H|H].
      * rewrite in_map_iff in H. destruct H as (b & Eb & Hb). apply (Hap b Hb). rewrite Eb. apply M.
        rewrite map_app. apply in_app_iff. right. now apply (in_map (fun a => tx a)).
      * apply (ND a Ha). rewrite (tail_alias al (Some false) off f' c ob off (Some (off + List.length (fst (fst x)))) c) in H.
        rewrite in_map_iff in H. destruct H as (b & Eb & Hb). rewrite <- Eb. now apply (in_map (fun a => tx a)).
Qed.
End Group.

(** ** all alternatives of a group *)
Lemma variants_ok n prod (o : bool) al c off : off = List.length (pb_production prod) -> forall (vs : list (list pat * span)) variants,
  Forall2 (fun a b => snd a = snd b /\ Forall2 rep (fst a) (fst b)) variants vs ->
  (forall v, In v vs -> snd v = (0, 0)) ->
  (forall gs v, In v vs -> Forall2 rep gs (fst v) -> single_ok n gs (fst v)) ->
  forall f acc,
  exists f' news,
    foldM (fun '(prod, prods) '(variant, a) =>
        if span_eqb a (0, 0) then
          do al <- match al with
            | Some _ => map_last (set_final (Some (List.length (pb_production prod) + List.length variant))) (pb_aliases prod)
            | None => Val (pb_aliases prod)
            end;
          do news <- single n (with_aliases prod al) variant;
          Val (with_aliases prod al, prods ++ news)
        else Panic P_assert) variants (with_aliases prod (pb_aliases prod ++ tail al (if o then Some true else None) off f c), acc)
    = Val (with_aliases prod (pb_aliases prod ++ tail al (if o then Some true else None) off f' c), acc ++ news) /\
    (vs <> [] -> news <> []) /\ (forall v, In v vs -> runs (fst v) <> []) /\
    Forall2 (fun p x => In (fst x) vs /\ In (snd x) (runs (fst (fst x))) /\
        res_ok (with_aliases prod (pb_aliases prod ++ tail al (if o then Some true else None) off (Some (off + List.length (fst (fst x)))) c)) (fst (fst x)) p (snd x))
      news (flat_map (fun v => map (pair v) (runs (fst v))) vs).
Proof.
  intros Eoff vs variants F. induction F as [|[gs a] v variants vs [Es Fr] F IH]; intros Hc Hs f acc.
  - exists f, []. simpl. rewrite app_nil_r. repeat split; auto; easy.
  - simpl in Es, Fr. cbn [foldM]. rewrite Es, (Hc v) by now left. simpl (span_eqb (0,0) (0,0)). cbn [pb_aliases pb_production with_aliases].
    change (pb_aliases (with_aliases prod ?x)) with x. 
    rewrite last_own. cbn [bind].
    assert (Et : map (set_final (Some (List.length (pb_production prod) + List.length gs))) (tail al (if o then Some true else None) off f c)
                = tail al (if o then Some true else None) off (Some (off + List.length (fst v))) c).
    { rewrite Eoff, (Forall2_len _ _ _ Fr). destruct al; reflexivity. }
    rewrite Et.
    change (with_aliases (with_aliases prod ?x) ?y) with (with_aliases prod y).
    destruct (Hs gs v (or_introl eq_refl) Fr (with_aliases prod (pb_aliases prod ++ tail al (if o then Some true else None) off (Some (off + List.length (fst v))) c))) as (out & E & Ne & Fo).
    rewrite E. cbn [bind].
    destruct (IH (fun v' H => Hc v' (or_intror H)) (fun gs' v' H => Hs gs' v' (or_intror H)) (Some (off + List.length (fst v))) (acc ++ out)) as (f' & news & E' & _ & Hr & Fn).
    exists f', (out ++ news). rewrite app_assoc. split; [exact E'|]. split; [destruct out; easy|]. split.
    + intros v' [<-|H]; [|auto]. intros E0. rewrite E0 in Fo. inversion Fo. congruence.
    + simpl. apply Forall2_app.
      * apply Forall2_map_r. clear - Fo. 
        assert (H : Forall2 (fun a c0 => In c0 (runs (fst v)) /\ res_ok (with_aliases prod (pb_aliases prod ++ tail al (if o then Some true else None) off (Some (off + List.length (fst v))) c)) (fst v) a c0) out (runs (fst v))).
        { clear - Fo. remember (runs (fst v)) as R eqn:ER. clear ER. induction Fo; constructor; auto.
          - split; [now left|easy].
          - eapply Forall2_imp; [|exact IHFo]. intros ? ? [? ?]. split; [now right|easy]. }
        eapply Forall2_imp; [|exact H]. intros p r [H1 H2]. simpl. auto.
      * eapply Forall2_imp; [|exact Fn]. intros p x (H1 & H2). simpl. auto.
Qed.

Lemma set_optional_tail b al ob i f c : map (set_optional b) (tail al ob i f c) = tail al b i f c.
Proof. now destruct al. Qed.

Lemma res_clone_sym prod s o al c c' p r : res_ok prod [PSym s o al c] p r -> res_ok prod [PSym s o al c'] p r.
Proof.
  intros (R1 & R2 & R3 & R4 & R5). repeat (split; [assumption|]). intros [G D] Hap. apply R5; [|exact Hap]. split; [repeat constructor|].
  unfold distinct. repeat constructor.
Qed.
Lemma res_clone_group prod vs o al c c' p r : res_ok prod [PGroup vs o al c] p r -> res_ok prod [PGroup vs o al c'] p r.
Proof.
  intros (R1 & R2 & R3 & R4 & R5). repeat (split; [assumption|]). intros [G D] Hap. apply R5; [|exact Hap]. split.
  - inversion G as [|? ? Gi _]; subst. inversion Gi; subst. constructor; [|constructor]. constructor; auto.
  - unfold distinct. repeat constructor.
Qed.

Theorem single_all n : forall ps gs, psize ps < n -> rep_pipe gs ps -> clean_pipe ps = true -> single_ok n gs ps.
Proof.
  induction n as [|n IH]; [lia|]. intros ps gs Hn Hr Hc prod.
  destruct Hr as [|g p gs ps Hg Hr].
  { exists [prod]. split; [reflexivity|]. split; [easy|]. constructor; [apply res_ok_nil|constructor]. }
  assert (Es : psize (p :: ps) = size p + psize ps) by reflexivity. pose proof (size_pos p).
  simpl in Hc. apply andb_true_iff in Hc. destruct Hc as [Hcp Hcs].
  assert (Hrest : single_ok n gs ps) by (apply IH; auto; lia).
  assert (Hn' : exists m, n = S m) by (exists (n - 1); lia). destruct Hn' as [m Em].
  assert (Hmany : forall origin rs, Forall2 (res_ok prod [p]) origin rs -> exists out,
    match gs with [] => Val origin | _ => do l <- mapM (fun o => single n o gs) origin; Val (List.concat l) end = Val out
    /\ (origin <> [] -> out <> []) /\ Forall2 (res_ok prod (p :: ps)) out (flat_map (fun r => map (run_app r) (runs ps)) rs)).
  { subst n. intros. now apply many_ok. }
  destruct Hg as [g item opt al cl' Ea Ht|g item opt al cl' variants vs Ea Ht Ei Hne Fv]; set (cl := is_some al) in Ea; clearbody cl.
  - cbn [Wop.single]. rewrite Ea. rewrite push_own.
    set (prod1 := with_aliases prod _).
    assert (Hk := sym_kept prod (g_span item) opt al cl). cbn zeta in Hk. fold prod1 in Hk. apply res_clone_sym with (c' := cl') in Hk.
    destruct opt.
    + destruct (Hmany [with_production prod1 (pb_production prod1 ++ [definition (g_span item)]);
        with_aliases prod (pb_aliases prod ++ tail al (Some false) (List.length (pb_production prod)) None cl)] [([g_span item], at_own al None); ([], [])]) as (out & E & Ne & Fo).
      { constructor; [exact Hk|]. constructor; [|constructor]. apply res_clone_sym with cl, sym_dropped. }
      exists out. split; [|split; [apply Ne; easy|exact Fo]].
      assert (E2 : (do al0 <- match al with Some _ => map_last (set_optional (Some false)) (pb_aliases prod1) | None => Val (pb_aliases prod1) end;
         match gs with [] => Val [with_production prod1 (pb_production prod1 ++ [definition (g_span item)]); with_aliases prod1 al0]
         | _ => do l <- mapM (fun o => single n o gs) [with_production prod1 (pb_production prod1 ++ [definition (g_span item)]); with_aliases prod1 al0]; Val (List.concat l) end) = Val out).
      { unfold prod1 at 1 2. change (pb_aliases (with_aliases prod ?x)) with x. rewrite last_own, set_optional_tail. cbn [bind]. exact E. }
      destruct Ht as [Ht|Ht]; rewrite Ht; exact E2.
    + destruct (Hrest (with_production prod1 (pb_production prod1 ++ [definition (g_span item)]))) as (out & E & Ne & Fo).
      exists out. split; [destruct Ht as [Ht|Ht]; rewrite Ht; exact E|]. split; [easy|].
      simpl. rewrite app_nil_r. apply Forall2_map_r. eapply Forall2_imp; [|exact Fo]. intros p2 r2 H2. eapply res_ok_app; eauto.
  - cbn [Wop.single]. rewrite Ea. rewrite push_own, Ht, Ei.
    simpl in Hcp. rewrite forallb_forall in Hcp.
    destruct (variants_ok n prod opt al cl _ eq_refl vs variants Fv) with (f := @None nat) (acc := @nil prod_build) as (f' & news & E & Hn1 & Hn2 & Fn).
    { intros v Hv. apply Hcp in Hv. apply andb_true_iff in Hv. destruct Hv as [Hv _]. now destruct (span_eqb_spec (snd v) (0, 0)). }
    { intros gs' v Hv Hrep. apply IH; auto.
      - apply psize_in in Hv. simpl in Es. lia.
      - apply Hcp in Hv. now apply andb_true_iff in Hv. }
    rewrite E. cbn [bind app]. clear E.
    rewrite sub_eq.
    set (N := order _ _ _).
    assert (Hkept : Forall2 (res_ok prod [PGroup vs opt al cl']) (map (fun p => with_aliases p (fold_left sub1 N (pb_aliases p))) news)
      (map (fun r => (fst r, at_own al (Some (List.length (fst r))) ++ snd r)) (flat_map (fun v => runs (fst v)) vs))).
    { assert (Ef : flat_map (fun v : list pat * span => runs (fst v)) vs = map snd (flat_map (fun v => map (pair v) (runs (fst v))) vs)).
      { rewrite map_flat_map. apply flat_map_ext_in. intros v _. rewrite map_map. symmetry. apply map_id. }
      rewrite Ef. apply Forall2_map_l, Forall2_map_r, Forall2_map_r.
      assert (Fin : Forall2 (fun p x => In p news /\ branch prod vs opt al cl p x) news (flat_map (fun v => map (pair v) (runs (fst v))) vs)).
      { clear - Fn. unfold branch. remember (flat_map _ vs) as R eqn:ER. clear ER. induction Fn; constructor.
        - split; [now left|easy].
        - eapply Forall2_imp; [|exact IHFn]. intros ? ? [? ?]. split; [now right|easy]. }
      eapply Forall2_imp; [|exact Fin]. intros p x [Hp B]. apply res_clone_group with cl. now apply group_kept. }
    specialize (Hn1 Hne). destruct news as [|p0 rest]; [easy|].
    destruct opt.
    + change (pb_aliases (with_aliases prod ?x)) with x. rewrite last_own, set_optional_tail. cbn [bind].
      set (prods := map _ (p0 :: rest)) in *. simpl (nth_error prods 0). cbn [expect bind].
      set (ign := fold_left _ _ _).
      destruct (Hmany (prods ++ [ign]) (runs_item (PGroup vs true al cl'))) as (out & E & Ne & Fo).
      { rewrite runs_item_group. apply Forall2_app; [exact Hkept|]. constructor; [|constructor].
        unfold ign, N. change (with_aliases (with_aliases prod ?x) ?y) with (with_aliases prod y).
        apply res_clone_group with cl. eapply group_dropped; eauto. }
      exists out. split; [exact E|]. split; [apply Ne; now destruct prods|exact Fo].
    + cbn [bind]. destruct (Hmany _ _ Hkept) as (out & E & Ne & Fo).
      exists out. split; [exact E|]. split; [apply Ne; easy|].
      change (runs (PGroup vs false al cl' :: ps)) with (flat_map (fun r => map (run_app r) (runs ps)) (runs_item (PGroup vs false al cl'))).
      rewrite runs_item_group, app_nil_r. exact Fo.
Qed.
End B.
