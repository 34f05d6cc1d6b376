(** The order in which the names missing from an alternative of a group are added does not matter to
    what each name stands for: in closed form, name by name, whatever that order. *)
From Coq Require Import List Bool Arith Lia String Permutation.
From Verif Require Import BTree Model Strings Wop WopSpec WopP WopType WopNames WopShape Base.
Import ListNotations.
Local Open Scope list_scope.
Local Open Scope nat_scope.

(** the symbols of a production and, given where it begins and a name, how the statements binding
    that name are extended *)
Definition form : Type := (list span * (nat -> string -> list binding -> list binding))%type.
Definition form_app (r r' : form) : form := (fst r ++ fst r', fun n t l => snd r' (n + List.length (fst r)) t (snd r n t l)).
Definition form_nil : form := ([], fun _ _ l => l).
Definition upd (t : string) (l : list binding) : list binding :=
  match l with [] => [mkBind t (Some false) 0 None false] | b :: r => mkBind (bd_name b) (Some true) (bd_index b) (bd_final b) (bd_clone b) :: r end.

Section F.
Variable text : span -> string.
Definition proj (t : string) (l : list item_alias) : list binding := filter (fun b => String.eqb (bd_name b) t) (map (write_alias text) l).
Definition cnt (t : string) (l : list span) : nat := List.length (filter (fun s => String.eqb (text s) t) l).
Definition form_kept (vs : list (list pat * span)) (o : bool) (a : option span) (v : list pat * span) (r : form) : form :=
  (fst r, fun n t l => Nat.iter (cnt t (inner vs)) (upd t) (snd r n t (l ++ proj t (tail a (if o then Some true else None) n (Some (n + List.length (fst v))) true)))).
Definition form_drop (vs : list (list pat * span)) (a : option span) (kept : list form) : form :=
  ([], fun n t l =>
    let b := l ++ proj t (tail a (Some false) n (Some (n + last_len vs)) true) in
    b ++ repeat (mkBind t (Some false) 0 None (is_some a)) (match kept with x :: _ => List.length (snd x n t l) - List.length b | [] => 0 end)).
Fixpoint forms_item (p : pat) : list form :=
  match p with
  | PSym s o a _ => ([s], fun n t l => l ++ proj t (tail a (if o then Some true else None) n None true)) ::
      (if o then [([], fun n t l => l ++ proj t (tail a (Some false) n None true))] else [])
  | PGroup vs o a _ =>
      let kept := flat_map (fun v => map (form_kept vs o a v)
        ((fix pipe ps := match ps with
          | [] => [form_nil]
          | p :: ps' => flat_map (fun r => map (form_app r) (pipe ps')) (forms_item p)
          end) (fst v))) vs in
      kept ++ (if o then [form_drop vs a kept] else [])
  end.
Fixpoint forms (ps : list pat) : list form :=
  match ps with
  | [] => [form_nil]
  | p :: ps' => flat_map (fun r => map (form_app r) (forms ps')) (forms_item p)
  end.
Definition forms_kept (vs : list (list pat * span)) (o : bool) (a : option span) : list form := flat_map (fun v => map (form_kept vs o a v) (forms (fst v))) vs.
Lemma forms_group vs o a c : forms_item (PGroup vs o a c) = forms_kept vs o a ++ (if o then [form_drop vs a (forms_kept vs o a)] else []).
Proof. reflexivity. Qed.

(** ** statements of one name *)
Notation sub1 := (sub1 text).
Lemma proj_app t l m : proj t (l ++ m) = proj t l ++ proj t m.
Proof. unfold proj. now rewrite map_app, filter_app. Qed.
Lemma proj_len t l : List.length (proj t l) = cnt t (map a_alias l).
Proof. unfold proj, cnt. induction l as [|a l IH]; [reflexivity|]. cbn [map filter write_alias bd_name]. destruct (String.eqb _ t); cbn [List.length]; now rewrite IH. Qed.
Lemma cnt_app t l m : cnt t (l ++ m) = cnt t l + cnt t m.
Proof. unfold cnt. now rewrite filter_app, app_length. Qed.
Lemma cnt_perm t l m : Permutation l m -> cnt t l = cnt t m.
Proof. intros P. unfold cnt. apply Permutation_length, filter_perm, P. Qed.
Lemma proj_absent t c Z : proj t (map (absent c) Z) = repeat (mkBind t (Some false) 0 None c) (cnt t Z).
Proof.
  unfold proj, cnt. induction Z as [|s Z IH]; [reflexivity|]. cbn [map filter write_alias bd_name absent a_alias]. destruct (String.eqb_spec (text s) t) as [<-|_]; [|exact IH].
  cbn [List.length repeat]. f_equal. exact IH.
Qed.
Lemma map_first_proj t s l l' : map_first (fun a => String.eqb (text (a_alias a)) (text s)) (set_optional (Some true)) l = Some l' ->
  map a_alias l' = map a_alias l /\ proj t l' = (if String.eqb (text s) t then upd t (proj t l) else proj t l).
Proof.
  revert l'. induction l as [|a l IH]; intros l' E; [discriminate|]. cbn [map_first] in E. destruct (String.eqb_spec (text (a_alias a)) (text s)) as [Ea|Na].
  - injection E as <-. split; [reflexivity|]. unfold proj. cbn [map filter write_alias bd_name set_optional a_alias]. rewrite Ea. destruct (String.eqb (text s) t); reflexivity.
  - destruct (map_first _ _ l) as [m|] eqn:Em; [|discriminate]. injection E as <-. destruct (IH m eq_refl) as [H1 H2]. split; [cbn [map]; now f_equal|].
    unfold proj in *. cbn [map filter write_alias bd_name]. destruct (String.eqb_spec (text (a_alias a)) t) as [Et|Nt].
    + rewrite H2. destruct (String.eqb_spec (text s) t) as [Es|_]; [congruence|reflexivity].
    + exact H2.
Qed.
Lemma map_first_none s l : map_first (fun a => String.eqb (text (a_alias a)) (text s)) (set_optional (Some true)) l = None -> forall a, In a l -> text (a_alias a) <> text s.
Proof.
  induction l as [|b l IH]; [easy|]. cbn [map_first]. destruct (String.eqb_spec (text (a_alias b)) (text s)); [discriminate|]. destruct (map_first _ _ l); [discriminate|]. intros _ a [<-|Ha]; auto.
Qed.
Lemma sub1_proj t l s : proj t (sub1 l s) = if String.eqb (text s) t then upd t (proj t l) else proj t l.
Proof.
  unfold WopP.sub1. destruct (map_first _ _ l) as [l'|] eqn:E; [exact (proj2 (map_first_proj t s l l' E))|]. pose proof (map_first_none _ _ E) as H. rewrite proj_app. unfold proj at 2. cbn [map filter write_alias none_of bd_name a_alias a_optional a_index a_final a_clone].
  destruct (String.eqb_spec (text s) t) as [<-|_]; [|apply app_nil_r]. replace (proj (text s) l) with (@nil binding); [reflexivity|]. symmetry. clear E. induction l as [|a l IH]; [reflexivity|]. unfold proj. cbn [map filter write_alias bd_name].
  destruct (String.eqb_spec (text (a_alias a)) (text s)) as [Ea|_]; [exfalso; apply (H a); auto; now left|]. apply IH. intros b Hb. apply H. now right.
Qed.
Lemma iter_comm {A} n (f : A -> A) x : Nat.iter n f (f x) = f (Nat.iter n f x).
Proof. induction n as [|n IH]; [reflexivity|]. cbn [Nat.iter nat_rect]. unfold Nat.iter in IH. now rewrite IH. Qed.
Lemma sub_proj t N : forall l, proj t (fold_left sub1 N l) = Nat.iter (cnt t N) (upd t) (proj t l).
Proof.
  induction N as [|s N IH]; intros l; [reflexivity|]. cbn [fold_left]. rewrite IH, sub1_proj. unfold cnt. cbn [filter]. destruct (String.eqb (text s) t); [|reflexivity]. cbn [List.length]. rewrite iter_comm. reflexivity.
Qed.
Lemma sub_spans N : forall l, exists Y, map a_alias (fold_left sub1 N l) = map a_alias l ++ Y /\ NoDup Y /\ incl Y N /\ (forall s, In s Y -> ~ In s (map a_alias l)).
Proof.
  induction N as [|s N IH]; intros l.
  - exists []. cbn [fold_left]. rewrite app_nil_r. split; [reflexivity|]. split; [constructor|]. split; [easy|easy].
  - cbn [fold_left]. unfold WopP.sub1 at 2. destruct (map_first _ _ l) as [l'|] eqn:E.
    + destruct (map_first_proj "" s l l' E) as [H _]. destruct (IH l') as (Y & H1 & H2 & H3 & H4). rewrite H in H1, H4. exists Y. split; [exact H1|]. split; [exact H2|]. split; [intros x Hx; right; auto|exact H4].
    + pose proof (map_first_none _ _ E) as Hn. destruct (IH (l ++ [none_of s])) as (Y & H1 & H2 & H3 & H4). rewrite map_app in H1, H4. cbn [map none_of a_alias] in H1, H4. exists (s :: Y). split; [rewrite H1, <- app_assoc; reflexivity|]. split; [|split].
      * constructor; auto. intros Hs. apply (H4 s Hs). apply in_app_iff. right. now left.
      * intros x [<-|Hx]; [now left|right; auto].
      * intros x [<-|Hx] Hl; [|apply (H4 x Hx); apply in_app_iff; now left]. apply in_map_iff in Hl as (a & Ea & Ha). apply (Hn a Ha). now rewrite Ea.
Qed.

Section S.
Variable order : prod_build -> list prod_build -> list span -> list span.
Hypothesis Ho : iterates order.
Variable defs : bmap string span.
Notation single := (single text order defs).

Definition okp (prod : prod_build) (Sp : list span) (p : prod_build) (x : form) : Prop :=
  pb_production p = pb_production prod ++ map (definition text defs) (fst x) /\
  (forall t, proj t (pb_aliases p) = snd x (List.length (pb_production prod)) t (proj t (pb_aliases prod))) /\
  exists X, map a_alias (pb_aliases p) = map a_alias (pb_aliases prod) ++ X /\ NoDup X /\ incl X Sp.
Definition covered (Sp : list span) (out : list prod_build) : Prop := forall s, In s Sp -> exists p, In p out /\ In s (map a_alias (pb_aliases p)).
Definition sfresh (prod : prod_build) (ps : list pat) : Prop := NoDup (map a_alias (pb_aliases prod) ++ pipe_spans ps).

Lemma pipe_cons p ps : pipe_spans (p :: ps) = alias_spans p ++ pipe_spans ps.
Proof. reflexivity. Qed.
Lemma okp_app prod p ps p1 p2 r1 r2 : NoDup (pipe_spans (p :: ps)) -> okp prod (alias_spans p) p1 r1 -> okp p1 (pipe_spans ps) p2 r2 -> okp prod (pipe_spans (p :: ps)) p2 (form_app r1 r2).
Proof.
  intros N (A1 & A2 & X & A3 & A4 & A5) (B1 & B2 & Y & B3 & B4 & B5). split; [|split]; cbn [form_app fst snd].
  - rewrite B1, A1, map_app. now rewrite app_assoc.
  - intros t. rewrite B2, A2, A1, app_length, map_length. reflexivity.
  - exists (X ++ Y). rewrite B3, A3, app_assoc. split; [reflexivity|]. rewrite pipe_cons in *. split.
    + apply NoDup_app_intro; auto. intros s Hs Hy. exact (NoDup_app_remove' _ _ N s (A5 s Hs) (B5 s Hy)).
    + apply incl_app; [apply incl_appl|apply incl_appr]; auto.
Qed.
Lemma okp_nil o : okp o [] o form_nil.
Proof. split; [|split]; cbn [form_nil fst snd map]; [now rewrite app_nil_r|reflexivity|]. exists []. rewrite app_nil_r. split; [reflexivity|]. split; [constructor|easy]. Qed.
Lemma sfresh_item prod p ps : sfresh prod (p :: ps) -> NoDup (map a_alias (pb_aliases prod) ++ alias_spans p).
Proof. unfold sfresh. rewrite pipe_cons, app_assoc. apply NoDup_app_l. Qed.
Lemma sfresh_pipe prod ps : sfresh prod ps -> NoDup (pipe_spans ps).
Proof. apply NoDup_app_r. Qed.
Lemma sfresh_next prod p ps o x : sfresh prod (p :: ps) -> okp prod (alias_spans p) o x -> sfresh o ps.
Proof.
  unfold sfresh. rewrite pipe_cons, app_assoc. intros N (_ & _ & X & E & Nx & Hx). rewrite E. apply NoDup_app_intro.
  - apply NoDup_app_intro; auto; [apply NoDup_app_l in N; now apply NoDup_app_l in N|]. intros s Hs Hy. apply NoDup_app_l in N. exact (NoDup_app_remove' _ _ N s Hs (Hx s Hy)).
  - exact (NoDup_app_r _ _ N).
  - intros s Hs. apply (NoDup_app_remove' _ _ N s). apply in_app_iff in Hs as [Hs|Hs]; apply in_app_iff; auto.
Qed.
Lemma keeps_spans o Sp out xs : Forall2 (okp o Sp) out xs -> out <> [] -> forall s, In s (map a_alias (pb_aliases o)) -> exists p, In p out /\ In s (map a_alias (pb_aliases p)).
Proof.
  intros F Ne s Hs. destruct F as [|p x out xs (_ & _ & X & E & _) F]; [easy|]. exists p. split; [now left|]. rewrite E. apply in_app_iff. now left.
Qed.

Lemma many_form n gs prod p ps origin xs out : (forall o l, sfresh o ps -> single n o gs = Val l -> Forall2 (okp o (pipe_spans ps)) l (forms ps) /\ covered (pipe_spans ps) l) -> rep_pipe gs ps ->
  sfresh prod (p :: ps) -> Forall2 (okp prod (alias_spans p)) origin xs -> covered (alias_spans p) origin -> origin <> [] ->
  match gs with [] => Val origin | _ => do l <- mapM (fun o => single n o gs) origin; Val (List.concat l) end = Val out ->
  Forall2 (okp prod (pipe_spans (p :: ps))) out (flat_map (fun r => map (form_app r) (forms ps)) xs) /\ covered (pipe_spans (p :: ps)) out.
Proof.
  intros H Hr Hf F Hc Hne E.
  pose proof (sfresh_pipe _ _ Hf) as Np.
  assert (Hone : forall o x l, okp prod (alias_spans p) o x -> Forall2 (okp o (pipe_spans ps)) l (forms ps) -> Forall2 (okp prod (pipe_spans (p :: ps))) l (map (form_app x) (forms ps))).
  { intros o x l Hs Fl. apply Forall2_map_r. eapply Forall2_imp; [|exact Fl]. intros p2 r2 H2. eapply okp_app; eauto. }
  destruct gs as [|g gs].
  - injection E as <-. inversion Hr; subst. split.
    + clear H Hc Hne. induction F as [|o x origin xs Hs F IH]; [constructor|]. cbn [flat_map forms map app]. constructor; [|exact IH].
      specialize (Hone o x [o] Hs). cbn [forms map] in Hone. assert (G : Forall2 (okp prod (pipe_spans [p])) [o] [form_app x form_nil]); [|now inversion G].
      apply Hone. constructor; [apply okp_nil|constructor].
    + intros s Hs. rewrite pipe_cons, app_nil_r in Hs. auto.
  - apply bind_val in E as (l & E & E'). injection E' as <-. apply mapM_forall2 in E.
    assert (Hall : forall o lo, In (o, lo) (combine origin l) -> Forall2 (okp o (pipe_spans ps)) lo (forms ps) /\ covered (pipe_spans ps) lo /\ lo <> []).
    { intros o lo Hi. assert (G : exists x, okp prod (alias_spans p) o x) by (apply in_combine_l in Hi; destruct (Forall2_in_l_ex _ _ _ _ F Hi) as (x & _ & Hx); eauto). destruct G as (x & Hx).
      assert (Eo : single n o (g :: gs) = Val lo). { clear - E Hi. induction E as [|a b l1 l2 E1 E IH]; [easy|]. destruct Hi as [[= <- <-]|Hi]; auto. }
      destruct (H o lo) as [G1 G2]; auto; [eapply sfresh_next; eauto|]. split; [exact G1|]. split; [exact G2|]. eapply single_nonempty; eauto. }
    split.
    + clear Hc Hne H. revert xs F. induction E as [|o lo origin l Eo E IH]; intros xs F; inversion F as [|? x ? xs' Hs F']; subst; [constructor|]. cbn [List.concat flat_map]. apply Forall2_app.
      * apply (Hone o x lo Hs). apply Hall. now left.
      * apply IH; auto. intros o' lo' Hi. apply Hall. now right.
    + assert (Hcomb : forall o, In o origin -> exists lo, In (o, lo) (combine origin l)).
      { clear - E. induction E as [|a b l1 l2 E1 E IH]; [easy|]. intros o [<-|Ho]; [exists b; now left|]. destruct (IH o Ho) as (lo & Hl). exists lo. now right. }
      intros s Hs. rewrite pipe_cons in Hs. apply in_app_iff in Hs as [Hs|Hs].
      * destruct (Hc s Hs) as (o & Hi & Hso). destruct (Hcomb o Hi) as (lo & Hlo). destruct (Hall o lo Hlo) as (G1 & _ & G3). destruct (keeps_spans _ _ _ _ G1 G3 s Hso) as (q & Hq & Hsq). exists q. split; [|exact Hsq]. apply in_concat. exists lo. split; [exact (in_combine_r _ _ _ _ Hlo)|exact Hq].
      * destruct origin as [|o origin]; [easy|]. destruct (Hcomb o (or_introl eq_refl)) as (lo & Hlo). destruct (Hall o lo Hlo) as (_ & G2 & _). destruct (G2 s Hs) as (q & Hq & Hsq). exists q. split; [|exact Hsq]. apply in_concat. exists lo. split; [exact (in_combine_r _ _ _ _ Hlo)|exact Hq].
Qed.

Section Group.
Variables (prod : prod_build) (vs : list (list pat * span)) (o : bool) (al : option span) (cl : bool).
Notation off := (List.length (pb_production prod)).
Notation ob := (if o then Some true else None).
Notation base f := (with_aliases prod (pb_aliases prod ++ tail al ob off f true)).
Hypothesis Hf : NoDup (map a_alias (pb_aliases prod) ++ opt_span al ++ inner vs).
Variable news : list prod_build.
Definition obranch (p : prod_build) (x : (list pat * span) * form) : Prop :=
  In (fst x) vs /\ okp (base (Some (off + List.length (fst (fst x))))) (pipe_spans (fst (fst x))) p (snd x).
Hypothesis Hnews : Forall2 obranch news (flat_map (fun v => map (pair v) (forms (fst v))) vs).
Hypothesis Hcov : covered (inner vs) news.
Variable f' : option nat.
Notation N := (order (base f') news (filter (fun s => negb (existsb (span_eqb s) (map a_alias (pb_aliases (base f')))))
  (dedup (map a_alias (flat_map pb_aliases news))))).

Lemma obase_spans f : map a_alias (pb_aliases (base f)) = map a_alias (pb_aliases prod) ++ opt_span al.
Proof. simpl. rewrite map_app, tail_spans. reflexivity. Qed.
Lemma oinner_base s : In s (inner vs) -> ~ In s (map a_alias (pb_aliases prod) ++ opt_span al).
Proof. intros Hs Hb. rewrite app_assoc in Hf. exact (NoDup_app_remove' _ _ Hf s Hb Hs). Qed.
Lemma oN : Permutation N (inner vs).
Proof.
  assert (Hni : NoDup (inner vs)) by (rewrite app_assoc in Hf; exact (NoDup_app_r _ _ Hf)).
  rewrite (Ho _ _ _). apply NoDup_Permutation; [apply NoDup_filter, dedup_nodup|exact Hni|]. intros s. rewrite filter_In, dedup_in, negb_true_iff, obase_spans. split.
  - intros [Hs Hb]. apply in_map_iff in Hs as (a & <- & Ha). apply in_flat_map in Ha as (p & Hp & Ha). destruct (Forall2_in_l_ex _ _ _ _ Hnews Hp) as (x & _ & Hv & _ & _ & X & E & _ & HX).
    apply (in_map a_alias) in Ha. rewrite E, obase_spans in Ha. apply in_app_iff in Ha as [Ha|Ha].
    + exfalso. apply existsb_span in Ha. congruence.
    + exact (inner_in _ _ _ Hv (HX _ Ha)).
  - intros Hs. split.
    + destruct (Hcov s Hs) as (p & Hp & Ha). apply in_map_iff in Ha as (a & <- & Ha). apply in_map, in_flat_map. now exists p.
    + destruct (existsb _ _) eqn:E; [|reflexivity]. apply existsb_span in E. now apply oinner_base in E.
Qed.
Lemma group_form_kept p x : obranch p x -> okp prod (opt_span al ++ inner vs) (with_aliases p (fold_left sub1 N (pb_aliases p))) (form_kept vs o al (fst x) (snd x)).
Proof.
  intros (Hv & P1 & P2 & X & E & NX & HX). pose proof oN as PN. set (Ns := N) in *. clearbody Ns. split; [exact P1|]. split.
  - intros t. cbn [pb_aliases with_aliases form_kept snd]. rewrite sub_proj, (cnt_perm t _ _ PN), P2. cbn [pb_aliases with_aliases pb_production]. now rewrite proj_app.
  - cbn [pb_aliases with_aliases]. destruct (sub_spans Ns (pb_aliases p)) as (Y & H1 & H2 & H3 & H4). exists (opt_span al ++ X ++ Y). rewrite H1, E, obase_spans. split; [now rewrite <- !app_assoc|].
    assert (HX' : incl X (inner vs)) by (intros s Hs; exact (inner_in _ _ _ Hv (HX s Hs))).
    assert (HY' : incl Y (inner vs)) by (intros s Hs; exact (Permutation_in _ PN (H3 s Hs))). split.
    + apply NoDup_app_intro; [| |].
      * exact (NoDup_app_l _ _ (NoDup_app_r _ _ Hf)).
      * apply NoDup_app_intro; auto. intros s Hs Hy. apply (H4 s Hy). rewrite E. apply in_app_iff. now right.
      * intros s Hs Hxy. apply (NoDup_app_remove' _ _ (NoDup_app_r _ _ Hf) s Hs). apply in_app_iff in Hxy as [Hx|Hy]; auto.
    + apply incl_app; [apply incl_appl, incl_refl|]. apply incl_appr, incl_app; auto.
Qed.
Lemma group_form_dropped p x rest : obranch p x -> forms_kept vs o al = form_kept vs o al (fst x) (snd x) :: rest ->
  let p0 := with_aliases p (fold_left sub1 N (pb_aliases p)) in
  okp prod (opt_span al ++ inner vs) (fold_left (add_missing (is_some al)) (pb_aliases p0) (with_aliases prod (pb_aliases prod ++ tail al (Some false) off (Some (off + last_len vs)) true)))
    (form_drop vs al (forms_kept vs o al)).
Proof.
  intros B Ek p0. pose proof (group_form_kept p x B) as (_ & K2 & Z & KE & KN & KI). fold p0 in K2, KE. rewrite add_missing_fold.
  destruct B as (Hv & _ & _ & X & E & NX & HX). destruct (sub_spans N (pb_aliases p)) as (Y & H1 & H2 & H3 & H4).
  assert (Ez : Z = opt_span al ++ X ++ Y). { change (map a_alias (pb_aliases p0)) with (map a_alias (fold_left sub1 N (pb_aliases p))) in KE. rewrite H1, E, obase_spans in KE. rewrite <- !app_assoc in KE. now apply app_inv_head in KE. }
  assert (Nd : NoDup (map a_alias (pb_aliases p0))).
  { rewrite KE. apply NoDup_app_intro; auto; [exact (NoDup_app_l _ _ Hf)|]. intros s Hs Hz. exact (NoDup_app_remove' _ _ Hf s Hs (KI s Hz)). }
  rewrite miss_fold by exact Nd. set (L := map a_alias (pb_aliases prod ++ tail al (Some false) off (Some (off + last_len vs)) true)).
  rewrite <- (map_map a_alias (absent (is_some al))).
  assert (Ef : forall l, map a_alias (filter (fun a => negb (existsb (span_eqb (a_alias a)) L)) l) = filter (fun s => negb (existsb (span_eqb s) L)) (map a_alias l)).
  { induction l as [|a l IH]; [reflexivity|]. cbn [filter map]. destruct (negb _); cbn [map]; now rewrite IH. }
  rewrite Ef. assert (EL : L = map a_alias (pb_aliases prod) ++ opt_span al) by (unfold L; now rewrite map_app, tail_spans).
  assert (F1 : filter (fun s => negb (existsb (span_eqb s) L)) L = []).
  { apply filter_none. intros s Hs. apply negb_false_iff. now apply existsb_span. }
  assert (F2 : forall m, (forall s, In s m -> ~ In s L) -> filter (fun s => negb (existsb (span_eqb s) L)) m = m).
  { induction m as [|s m IH]; intros Hm; [reflexivity|]. cbn [filter]. destruct (existsb (span_eqb s) L) eqn:Es; [apply existsb_span in Es; exfalso; apply (Hm s); auto; now left|]. cbn [negb]. f_equal. apply IH. intros y Hy. apply Hm. now right. }
  assert (Hxy : incl (X ++ Y) (inner vs)). { intros s Hs. apply in_app_iff in Hs as [Hs|Hs]; [exact (inner_in _ _ _ Hv (HX s Hs))|exact (Permutation_in _ oN (H3 s Hs))]. }
  assert (EF : filter (fun s => negb (existsb (span_eqb s) L)) (map a_alias (pb_aliases p0)) = X ++ Y).
  { rewrite KE, Ez, app_assoc, <- EL, filter_app, F1. cbn [app]. apply F2. intros s Hs. rewrite EL. apply oinner_base. auto. }
  rewrite EF. split; [|split]; cbn [pb_production with_aliases pb_aliases form_drop fst snd map]; [now rewrite app_nil_r| |].
  - intros t. rewrite Ek, <- K2, !proj_app, proj_absent. f_equal. f_equal. rewrite app_length, !proj_len, KE, Ez, tail_spans, !cnt_app. lia.
  - exists (opt_span al ++ X ++ Y). rewrite (map_app a_alias _ (map _ _)), (map_app a_alias (pb_aliases prod)), tail_spans, map_map. cbn [absent a_alias]. rewrite map_id. split; [now rewrite <- app_assoc|]. rewrite <- Ez. auto.
Qed.
Lemma group_covered : news <> [] -> covered (opt_span al ++ inner vs) (map (fun p => with_aliases p (fold_left sub1 N (pb_aliases p))) news).
Proof.
  intros Hne s Hs. assert (G : exists p, In p news /\ In s (map a_alias (pb_aliases p))).
  { apply in_app_iff in Hs as [Hs|Hs]; [|auto]. clear Hcov. destruct Hnews as [|p x ? ? (_ & _ & _ & X & E & _) _]; [easy|]. exists p. split; [now left|]. rewrite E, obase_spans, !in_app_iff. auto. }
  destruct G as (p & Hp & Hsp). exists (with_aliases p (fold_left sub1 N (pb_aliases p))). split; [apply in_map_iff; now exists p|]. change (In s (map a_alias (fold_left sub1 N (pb_aliases p)))). destruct (sub_spans N (pb_aliases p)) as (Y & -> & _). apply in_app_iff. now left.
Qed.
End Group.

Lemma variants_form n prod (o : bool) al off vs0 : off = List.length (pb_production prod) -> NoDup (map a_alias (pb_aliases prod) ++ opt_span al ++ inner vs0) -> forall (vs : list (list pat * span)) variants,
  Forall2 (fun a b => snd a = snd b /\ Forall2 rep (fst a) (fst b)) variants vs -> (forall v, In v vs -> In v vs0) ->
  (forall gs (v : list pat * span) b out, Forall2 rep gs (fst v) -> sfresh b (fst v) -> single n b gs = Val out -> Forall2 (okp b (pipe_spans (fst v))) out (forms (fst v)) /\ covered (pipe_spans (fst v)) out) ->
  forall f acc prod' prods,
    foldM (fun '(prod, prods) '(variant, a) =>
        if span_eqb a (0, 0) then
          do al <- match al with
            | Some _ => map_last (set_final (Some (List.length (pb_production prod) + List.length variant))) (pb_aliases prod)
            | None => Val (pb_aliases prod)
            end;
          do news <- single n (with_aliases prod al) variant;
          Val (with_aliases prod al, prods ++ news)
        else Panic P_assert) variants (with_aliases prod (pb_aliases prod ++ tail al (if o then Some true else None) off f true), acc) = Val (prod', prods) ->
    exists news, prods = acc ++ news /\ prod' = with_aliases prod (pb_aliases prod ++ tail al (if o then Some true else None) off (match vs with [] => f | _ => Some (off + last_len vs) end) true) /\
      (vs <> [] -> news <> []) /\ covered (inner vs) news /\
      Forall2 (fun p x => In (fst x) vs /\
        okp (with_aliases prod (pb_aliases prod ++ tail al (if o then Some true else None) off (Some (off + List.length (fst (fst x)))) true)) (pipe_spans (fst (fst x))) p (snd x))
      news (flat_map (fun v => map (pair v) (forms (fst v))) vs).
Proof.
  intros Eoff Hf vs variants F Hin Hs. induction F as [|[gs a] v variants vs [Es Fr] F IH]; intros f acc prod' prods E.
  - injection E as <- <-. exists []. rewrite app_nil_r. split; [reflexivity|]. split; [reflexivity|]. split; [easy|]. split; [easy|constructor].
  - simpl in Es, Fr. cbn [foldM] in E. apply bind_val in E as ([q1 q2] & E1 & E). destruct (span_eqb a (0, 0)); [|discriminate].
    change (pb_aliases (with_aliases prod ?x)) with x in E1. rewrite last_own in E1. cbn [bind] in E1. apply bind_val in E1 as (out & En & E1). injection E1 as <- <-.
    change (pb_production (with_aliases prod ?x)) with (pb_production prod) in En, E. change (with_aliases (with_aliases prod ?x) ?y) with (with_aliases prod y) in En, E.
    assert (Et : map (set_final (Some (List.length (pb_production prod) + List.length gs))) (tail al (if o then Some true else None) off f true)
                = tail al (if o then Some true else None) off (Some (off + List.length (fst v))) true).
    { rewrite Eoff, (Forall2_len _ _ _ Fr). destruct al; reflexivity. }
    rewrite Et in En, E. destruct (IH (fun x Hx => Hin x (or_intror Hx)) _ _ _ _ E) as (news & -> & -> & Hn & Hcv & Fn).
    pose proof (single_nonempty text order Ho defs _ _ _ _ _ Fr En) as Hne.
    assert (Hsf : sfresh (with_aliases prod (pb_aliases prod ++ tail al (if o then Some true else None) off (Some (off + List.length (fst v))) true)) (fst v)).
    { unfold sfresh. cbn [pb_aliases with_aliases]. rewrite map_app, tail_spans. pose proof (Hin v (or_introl eq_refl)) as Hv. apply NoDup_app_intro.
      - rewrite app_assoc in Hf. exact (NoDup_app_l _ _ Hf).
      - apply (inner_nodup vs0); auto. exact (NoDup_app_r _ _ (NoDup_app_r _ _ Hf)).
      - intros s Hb Hsv. rewrite app_assoc in Hf. exact (NoDup_app_remove' _ _ Hf s Hb (inner_in _ _ _ Hv Hsv)). }
    destruct (Hs gs v _ out Fr Hsf En) as [Fo Co].
    exists (out ++ news). rewrite app_assoc. split; [reflexivity|]. split; [|split; [|split]].
    + destruct vs as [|v2 vs]; reflexivity.
    + intros _. now destruct out.
    + intros s Hi. unfold inner in Hi. cbn [flat_map] in Hi. apply in_app_iff in Hi as [Hi|Hi]; [destruct (Co s Hi) as (q & Hq & Hsq)|destruct (Hcv s Hi) as (q & Hq & Hsq)]; exists q; rewrite in_app_iff; auto.
    + cbn [flat_map]. apply Forall2_app.
      * apply Forall2_map_r. eapply Forall2_imp; [|exact Fo]. intros p r H2. cbn [fst snd]. split; [now left|exact H2].
      * eapply Forall2_imp; [|exact Fn]. intros p x (H1 & H2). split; [now right|exact H2].
Qed.

Theorem single_form n : forall gs ps prod out, rep_pipe gs ps -> sfresh prod ps -> single n prod gs = Val out -> Forall2 (okp prod (pipe_spans ps)) out (forms ps) /\ covered (pipe_spans ps) out.
Proof.
  induction n as [|n IH]; [discriminate|]. intros gs ps prod out Hr Hf E.
  destruct Hr as [|g p gs ps Hg Hr].
  { injection E as <-. split; [|easy]. constructor; [|constructor]. apply okp_nil. }
  assert (Hmany : forall origin, Forall2 (okp prod (alias_spans p)) origin (forms_item p) -> covered (alias_spans p) origin -> origin <> [] ->
    match gs with [] => Val origin | _ => do l <- mapM (fun o => single n o gs) origin; Val (List.concat l) end = Val out -> Forall2 (okp prod (pipe_spans (p :: ps))) out (forms (p :: ps)) /\ covered (pipe_spans (p :: ps)) out).
  { intros origin Fo Co No Em. cbn [forms]. eapply many_form; eauto. }
  pose proof (sfresh_item _ _ _ Hf) as Hf1. pose proof (sfresh_pipe _ _ Hf) as Np.
  destruct Hg as [g item opt al cl' Ea Ht|g item opt al cl' variants vs Ea Ht Ei Hne Fv]; cbn [Wop.single] in E; rewrite Ea in E; rewrite push_own in E;
    assert (Ecl : forall ob i f, tail al ob i f (is_some al) = tail al ob i f true) by (intros; now destruct al); rewrite Ecl in E.
  - set (prod1 := with_aliases prod _) in E.
    assert (Eal : alias_spans (PSym (g_span item) opt al cl') = opt_span al) by now destruct al.
    assert (Hx : forall q, map a_alias (pb_aliases q) = map a_alias (pb_aliases prod) ++ opt_span al -> exists X, map a_alias (pb_aliases q) = map a_alias (pb_aliases prod) ++ X /\ NoDup X /\ incl X (alias_spans (PSym (g_span item) opt al cl'))).
    { intros q Eq. exists (opt_span al). split; [exact Eq|]. rewrite Eal. split; [|apply incl_refl]. rewrite Eal in Hf1. exact (NoDup_app_r _ _ Hf1). }
    assert (Hk : okp prod (alias_spans (PSym (g_span item) opt al cl')) (with_production prod1 (pb_production prod1 ++ [definition text defs (g_span item)])) ([g_span item], fun n t l => l ++ proj t (tail al (if opt then Some true else None) n None true))).
    { split; [reflexivity|]. split; [intros t; apply proj_app|]. apply Hx. unfold prod1. cbn [with_production with_aliases pb_aliases]. now rewrite map_app, tail_spans. }
    assert (Hc : forall l q, In q l -> map a_alias (pb_aliases q) = map a_alias (pb_aliases prod) ++ opt_span al -> covered (alias_spans (PSym (g_span item) opt al cl')) l).
    { intros l q Hq Eq s Hs. exists q. split; [exact Hq|]. rewrite Eq, in_app_iff, <- Eal. now right. }
    assert (E' : (if opt then
        do al0 <- match al with Some _ => map_last (set_optional (Some false)) (pb_aliases prod1) | None => Val (pb_aliases prod1) end;
        match gs with [] => Val [with_production prod1 (pb_production prod1 ++ [definition text defs (g_span item)]); with_aliases prod1 al0]
        | _ => do l <- mapM (fun o => single n o gs) [with_production prod1 (pb_production prod1 ++ [definition text defs (g_span item)]); with_aliases prod1 al0]; Val (List.concat l) end
      else single n (with_production prod1 (pb_production prod1 ++ [definition text defs (g_span item)])) gs) = Val out) by (destruct Ht as [Ht|Ht]; rewrite Ht in E; exact E).
    clear E. destruct opt.
    + unfold prod1 in E' at 1 2. change (pb_aliases (with_aliases prod ?x)) with x in E'. rewrite last_own, set_optional_tail in E'. cbn [bind] in E'.
      eapply Hmany; [| | |exact E']; [|eapply Hc; [now left|]|discriminate].
      * constructor; [exact Hk|]. constructor; [|constructor]. split; cbn [fst snd map]; [now rewrite app_nil_r|]. split; [intros t; apply proj_app|]. apply Hx. cbn [with_aliases pb_aliases]. now rewrite map_app, tail_spans.
      * unfold prod1. cbn [with_production with_aliases pb_aliases]. now rewrite map_app, tail_spans.
    + destruct (IH _ _ _ _ Hr (sfresh_next _ _ _ _ _ Hf Hk) E') as [Fo Co]. cbn [forms forms_item flat_map]. rewrite app_nil_r. split.
      * apply Forall2_map_r. eapply Forall2_imp; [|exact Fo]. intros p2 r2 H2. eapply okp_app; eauto.
      * intros s Hs. rewrite pipe_cons in Hs. apply in_app_iff in Hs as [Hs|Hs]; [|auto]. eapply keeps_spans; [exact Fo|eapply single_nonempty; eauto|]. unfold prod1. cbn [with_production with_aliases pb_aliases]. rewrite map_app, tail_spans, in_app_iff, <- Eal. now right.
  - rewrite alias_spans_group in Hf1. rewrite alias_spans_group in Hmany. rewrite Ht, Ei in E. apply bind_val in E as ([prod2 prods] & Ef & E).
    destruct (variants_form n prod opt al _ vs eq_refl Hf1 vs variants Fv (fun v H => H)) with (f := @None nat) (acc := @nil prod_build) (prod' := prod2) (prods := prods) as (news & En & -> & Hn1 & Hcv & Fn); [|exact Ef|].
    { intros gs' v b out' Hrep Hfb Eb. exact (IH _ _ _ _ Hrep Hfb Eb). }
    cbn [app] in En. subst prods. specialize (Hn1 Hne).
    assert (Em : (match vs with [] => @None nat | _ => Some (List.length (pb_production prod) + last_len vs) end) = Some (List.length (pb_production prod) + last_len vs)) by (destruct vs; [easy|reflexivity]).
    rewrite Em in E. rewrite sub_eq in E. set (N := order _ _ _) in E.
    assert (Ek : forms_kept vs opt al = map (fun x => form_kept vs opt al (fst x) (snd x)) (flat_map (fun v => map (pair v) (forms (fst v))) vs)).
    { unfold forms_kept. rewrite map_flat_map. apply flat_map_ext. intros v. rewrite map_map. reflexivity. }
    assert (Hkept : Forall2 (okp prod (opt_span al ++ inner vs)) (map (fun p => with_aliases p (fold_left sub1 N (pb_aliases p))) news) (forms_kept vs opt al)).
    { rewrite Ek. apply Forall2_map_l, Forall2_map_r. eapply Forall2_imp; [|exact Fn]. intros p x B. exact (group_form_kept prod vs opt al Hf1 news Fn Hcv _ p x B). }
    pose proof (group_covered prod vs opt al news Fn Hcv (Some (List.length (pb_production prod) + last_len vs)) Hn1) as Hco. fold N in Hco.
    destruct news as [|p0 rest]; [easy|]. assert (B : exists x0 rs, obranch prod vs opt al p0 x0 /\ forms_kept vs opt al = form_kept vs opt al (fst x0) (snd x0) :: rs).
    { rewrite Ek. destruct (flat_map _ vs) as [|x0 rs0]; [inversion Fn|]. exists x0. eexists. split; [now inversion Fn|reflexivity]. }
    destruct B as (x0 & rs & B0 & Ex0).
    apply bind_val in E as (prods2 & E2 & E). eapply Hmany; [| | |exact E].
    + rewrite forms_group. destruct opt.
      * change (pb_aliases (with_aliases prod ?x)) with x in E2. rewrite last_own, set_optional_tail in E2. cbn [bind] in E2. cbn [map nth_error expect bind] in E2.
        injection E2 as <-. apply (Forall2_app Hkept). constructor; [|constructor].
        exact (group_form_dropped prod vs true al Hf1 (p0 :: rest) Fn Hcv _ p0 x0 rs B0 Ex0).
      * injection E2 as <-. rewrite app_nil_r. exact Hkept.
    + intros s Hs. destruct (Hco s Hs) as (q & Hq & Hsq). exists q. split; [|exact Hsq]. destruct opt.
      * change (pb_aliases (with_aliases prod ?x)) with x in E2. rewrite last_own, set_optional_tail in E2. cbn [bind] in E2. cbn [map nth_error expect bind] in E2. injection E2 as <-. destruct Hq as [<-|Hq]; [now left|]. right. apply in_app_iff. now left.
      * injection E2 as <-. exact Hq.
    + destruct opt.
      * change (pb_aliases (with_aliases prod ?x)) with x in E2. rewrite last_own, set_optional_tail in E2. cbn [bind] in E2. cbn [map nth_error expect bind] in E2. injection E2 as <-. discriminate.
      * injection E2 as <-. discriminate.
Qed.
End S.
End F.
