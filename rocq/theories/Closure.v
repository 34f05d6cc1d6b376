(** Item-set closure and the finite universe of positions (C06). *)
From Coq Require Import List Bool Arith Lia.
From Verif Require Import BTree Model Base Spec SpecP GrammarP FirstFollow.
Import ListNotations.

Section Sublists.
Context {A : Type} {OA : Ord A}.

Fixpoint sublists (u : list A) : list (list A) :=
  match u with [] => [[]] | x :: u' => map (cons x) (sublists u') ++ sublists u' end.

Lemma sublists_nil u : In [] (sublists u).
Proof. induction u; simpl; auto. apply in_app_iff. auto. Qed.

Lemma sublists_in s u : sorted s -> sorted u -> incl s u -> In s (sublists u).
Proof.
  revert s. induction u as [|x u IH]; intros [|y s] Hs Hu Hi; simpl; auto.
  - exfalso. apply (Hi y). now left.
  - apply in_app_iff. right. apply sublists_nil.
  - apply in_app_iff. destruct Hs as [Hy Hs], Hu as [Hx Hu].
    destruct (Hi y (or_introl eq_refl)) as [->|Hyu].
    + left. apply in_map. apply IH; auto. intros z Hz.
      destruct (Hi z (or_intror Hz)) as [->|]; auto. apply Hy in Hz. now rewrite cmp_refl in Hz.
    + right. apply IH; auto.
      * split; auto.
      * intros z [<-|Hz]; auto. destruct (Hi z (or_intror Hz)) as [<-|]; auto.
        apply Hy in Hz. apply Hx in Hyu. pose proof (cmp_trans _ _ _ Hz Hyu) as C. now rewrite cmp_refl in C.
Qed.

Lemma sorted_incl_eq (s t : list A) : sorted s -> sorted t -> incl s t -> length t <= length s -> s = t.
Proof.
  intros Hs Ht Hi L. apply sorted_ext; auto. intros z. split; auto.
  apply NoDup_length_incl; auto using sorted_NoDup.
Qed.
End Sublists.

Section Closure.
Context {T : Type} {OT : Ord T}.
Variable g : grammar T.
Notation rules := (g_rules g).

(** [p] puts [q] into the closure, with lookahead [lk p] *)
Definition yields (lk : position T -> bset T) (p q : position T) : Prop :=
  exists B r pr, ptop p = Some B /\ bm_get B rules = Some r /\ In pr (r_prods r) /\ q = mkPos B pr 0 (lk p).

Definition closure_ok (lk : position T -> bset T) (closure : state T -> res (state T)) : Prop :=
  forall s, exists s', closure s = Val s' /\ sorted s' /\
    forall q, In q s' <-> In q s \/ exists p, In p s /\ yields lk p q.

Definition slr_lk (p : position T) : bset T := [].
Definition clr_lk (first : table T) (p : position T) : bset T :=
  match pnext p with None => p_look p | Some locus => first_of first [locus] end.

Lemma insert_prods_in top look prods s q :
  In q (insert_prods top look prods s) <-> In q s \/ exists pr, In pr prods /\ q = mkPos top pr 0 look.
Proof.
  unfold insert_prods. revert s. induction prods as [|pr prods IH]; intros s; simpl.
  - firstorder.
  - rewrite IH, bs_insert_in. split.
    + intros [[->|H]|(pr' & H1 & ->)]; eauto.
    + intros [H|(pr' & [<-|H1] & ->)]; eauto.
Qed.

Lemma insert_prods_sorted top look prods s : sorted s -> sorted (insert_prods top look prods s).
Proof.
  unfold insert_prods. revert s. induction prods as [|pr prods IH]; intros s Hs; simpl; auto.
  apply IH. now apply bs_insert_sorted.
Qed.

Lemma gen_closure_ok lk (closure : state T -> res (state T)) :
  (forall s, closure s = do new_state <- foldM (fun new_state pos =>
      match ptop pos with
      | None => Val new_state
      | Some top =>
          if is_terminal g top then Val new_state
          else do r <- expect P_index (bm_get top rules);
               Val (insert_prods top (lk pos) (r_prods r) new_state)
      end) s []; Val (bs_extend new_state s)) -> closure_ok lk closure.
Proof.
  intros Hc s. rewrite Hc. clear Hc closure.
  match goal with |- context [foldM ?F s []] => set (f := F) end.
  assert (G : forall l acc, sorted acc -> exists acc', foldM f l acc = Val acc' /\ sorted acc' /\
     forall q, In q acc' <-> In q acc \/ exists p, In p l /\ yields lk p q).
  { induction l as [|p l IH]; intros acc Ha.
    - exists acc. split; auto. split; auto. intros q. split; auto. intros [H|(p & [] & _)]; auto.
    - assert (exists acc1, f acc p = Val acc1 /\ sorted acc1 /\ forall q, In q acc1 <-> In q acc \/ yields lk p q) as (acc1 & E1 & S1 & H1).
      { subst f. cbv beta. unfold yields. destruct (ptop p) as [B|] eqn:Et.
        - destruct (is_terminal g B) eqn:E.
          + apply is_terminal_term in E. exists acc. split; auto. split; auto. intros q. split; auto.
            intros [H|(B' & r & pr & [= <-] & Er & _)]; auto. exfalso. apply E. now exists r.
          + apply is_terminal_nonterm in E as (r & Er). rewrite Er. simpl.
            eexists. split; [reflexivity|]. split; [now apply insert_prods_sorted|].
            intros q. rewrite insert_prods_in. split.
            * intros [H|(pr & H1 & ->)]; auto. right. exists B, r, pr. auto.
            * intros [H|(B' & r' & pr & [= <-] & Er' & H1 & ->)]; auto. right. exists pr. split; auto. congruence.
        - exists acc. split; auto. split; auto. intros q. split; auto. intros [H|(B' & r & pr & [=] & _)]; auto. }
      simpl. rewrite E1. simpl. destruct (IH acc1 S1) as (acc' & E' & S' & H'). exists acc'. split; auto. split; auto.
      intros q. rewrite H', H1. split.
      + intros [[H|H]|(p' & H2 & H3)]; eauto.
      + intros [H|(p' & [<-|H2] & H3)]; eauto. }
  destruct (G s [] I) as (acc' & E & S' & H'). rewrite E. simpl.
  eexists. split; [reflexivity|]. split; [now apply bs_extend_sorted|].
  intros q. rewrite bs_extend_in, H'. simpl. tauto.
Qed.

Lemma slr_closure_ok : closure_ok slr_lk (slr_closure g).
Proof. apply gen_closure_ok. reflexivity. Qed.

Lemma clr_closure_ok first : closure_ok (clr_lk first) (clr_closure g first).
Proof. apply gen_closure_ok. reflexivity. Qed.

(** the least closed superset of [seed] *)
Inductive clo (lk : position T -> bset T) (seed : state T) : position T -> Prop :=
| clo_seed p : In p seed -> clo lk seed p
| clo_yield p q : clo lk seed p -> yields lk p q -> clo lk seed q.

Lemma prop_closure_spec lk closure fuel seed c : closure_ok lk closure ->
  prop_closure closure fuel seed = Val c ->
  sorted c /\ (forall q, In q c <-> clo lk seed q) /\ closure c = Val c.
Proof.
  intros Hc E. unfold prop_closure in E.
  apply transitive_ind with (P := fun s => incl seed s /\ forall q, In q s -> clo lk seed q) in E as [[H1 H2] H3].
  - destruct (Hc c) as (c' & E' & S & H'). rewrite H3 in E'. injection E' as <-. split; auto. split; auto.
    intros q. split; auto. induction 1 as [p Hp|p q _ IH Hy]; auto. apply H'. right. eauto.
  - split; [intros ? ?; auto|]. intros q Hq. now constructor.
  - intros a b [Ha1 Ha2] Eb. destruct (Hc a) as (c' & E' & S & H'). rewrite Eb in E'. injection E' as <-. split.
    + intros q Hq. apply H'. left. auto.
    + intros q Hq. apply H' in Hq as [Hq|(p & Hp & Hy)]; auto. eapply clo_yield; eauto.
Qed.

(** idempotence *)
Lemma prop_closure_idem closure c : closure c = Val c -> forall fuel, 0 < fuel -> prop_closure closure fuel c = Val c.
Proof.
  intros E [|fuel] L; [lia|]. unfold prop_closure. simpl. rewrite E. simpl. now rewrite eqb_refl.
Qed.

(** ** termination in a finite universe *)
Section Universe.
Variable U : list (position T).
Variable V : position T -> Prop.
Variable lk : position T -> bset T.
Variable closure : state T -> res (state T).
Hypothesis Hc : closure_ok lk closure.
Hypothesis HU : forall p, V p -> In p U.
Hypothesis HV : forall p q, V p -> yields lk p q -> V q.

Lemma prop_closure_total seed : (forall p, In p seed -> V p) -> sorted seed ->
  forall fuel, length U < fuel -> exists c, prop_closure closure fuel seed = Val c.
Proof.
  intros Hi Hs fuel L.
  assert (L' : length U - length seed < fuel) by lia. clear L. unfold prop_closure. revert seed Hi Hs L'.
  induction fuel as [|fuel IH]; intros seed Hi Hs L; [lia|].
  simpl. destruct (Hc seed) as (s' & E & S' & H'). rewrite E. simpl.
  destruct (eqb_spec s' seed) as [->|N]; eauto.
  assert (incl seed s') as Hi' by (intros q Hq; apply H'; auto).
  assert (forall p, In p s' -> V p) as Hi2.
  { intros q Hq. apply H' in Hq as [Hq|(p & Hp & Hy)]; auto. eapply HV; eauto. }
  assert (length seed < length s').
  { destruct (le_lt_dec (length s') (length seed)); auto. exfalso. apply N. symmetry. now apply sorted_incl_eq. }
  assert (length s' <= length U).
  { apply NoDup_incl_length; [now apply sorted_NoDup|]. intros p Hp. auto. }
  apply IH; auto. lia.
Qed.
End Universe.

(** ** the positions of a grammar *)
Hypothesis W : wf_rules rules.

Definition vbody (A : T) (pr : production T) (p : nat) : Prop :=
  prod_at rules A (snd pr) (fst pr) /\ p <= length (fst pr).

Definition vpos (p : position T) : Prop :=
  vbody (p_rule p) (p_seq p) (p_point p) /\ sorted (p_look p) /\ incl (p_look p) (g_symbols g).

Definition universe : list (position T) :=
  flat_map (fun r => flat_map (fun pr => flat_map (fun k => map (fun l => mkPos (r_name r) pr k l) (sublists (g_symbols g)))
     (seq 0 (S (length (fst pr))))) (r_prods r)) (bm_values rules).

Lemma vpos_universe p : sorted (g_symbols g) -> vpos p -> In p universe.
Proof.
  intros Hs ([Hp L] & Sl & Il). unfold universe. pose proof Hp as Hp'.
  apply wf_prod_at in Hp' as (r & Er & Hn); auto.
  assert (r_name r = p_rule p) as En by (apply W; auto).
  apply in_flat_map. exists r. split; [apply wf_in; auto; now rewrite En|].
  apply in_flat_map. exists (p_seq p). split; [eapply nth_error_In; rewrite Hn; now destruct (p_seq p)|].
  apply in_flat_map. exists (p_point p). split; [apply in_seq; lia|].
  apply in_map_iff. exists (p_look p). split; [rewrite En; now destruct p|]. now apply sublists_in.
Qed.

(** lookahead functions that stay within the grammar's symbols *)
Definition lk_ok (lk : position T -> bset T) : Prop :=
  forall p, vpos p -> sorted (lk p) /\ incl (lk p) (g_symbols g).

Lemma yields_vpos lk p q : lk_ok lk -> vpos p -> yields lk p q -> vpos q.
Proof.
  intros Hl Hp (B & r & pr & Et & Er & Hpr & ->). destruct (Hl p Hp). split; simpl; auto.
  split; simpl; [|lia]. eapply wf_prod_in; eauto.
Qed.

Lemma clo_vpos lk seed : lk_ok lk -> (forall p, In p seed -> vpos p) -> forall q, clo lk seed q -> vpos q.
Proof. intros Hl Hs q. induction 1; auto. eapply yields_vpos; eauto. Qed.

Lemma adv_vpos (p : position T) X : vpos p -> ptop p = Some X -> vpos (adv p).
Proof.
  intros ([Hp L] & Hs & Hi) Et. split; [|auto]. split; simpl; auto.
  unfold ptop, peek in Et.
  assert (nth_error (fst (p_seq p)) (p_point p + 0) <> None) as N by congruence.
  apply nth_error_Some in N. lia.
Qed.

Lemma ptop_adv (p : position T) X : ptop p = Some X -> clone_next p = Some (adv p).
Proof.
  unfold ptop, peek, clone_next, finished. intros E.
  assert (nth_error (fst (p_seq p)) (p_point p + 0) <> None) as N by congruence.
  apply nth_error_Some in N. destruct (length (fst (p_seq p)) <=? p_point p) eqn:L; auto.
  apply Nat.leb_le in L. lia.
Qed.

Lemma sym_filter_in (s : state T) X q : In q (sym_filter s X) <-> exists p, In p s /\ ptop p = Some X /\ q = adv p.
Proof.
  unfold sym_filter. rewrite bs_of_list_in, filter_map_in. split.
  - intros (p & Hp & E). exists p. destruct (ptop p) as [Y|] eqn:Et; [|discriminate].
    destruct (eqb_spec Y X) as [->|]; [|discriminate]. rewrite (ptop_adv _ _ Et) in E. injection E as <-. auto.
  - intros (p & Hp & Et & ->). exists p. split; auto. rewrite Et, eqb_refl. eapply ptop_adv; eauto.
Qed.

Lemma sym_filter_sorted (s : state T) X : sorted (sym_filter s X).
Proof. apply bs_of_list_sorted. Qed.

Lemma slr_lk_ok : lk_ok slr_lk.
Proof. intros p _. split; [exact I|intros ? []]. Qed.

Lemma first_of_one first X x :
  In x (first_of first [X]) <-> (bm_get X first = None /\ x = X) \/ tin first X x.
Proof.
  unfold first_of, tin. simpl. destruct (bm_get X first) as [s|].
  - rewrite bs_extend_in. simpl. split.
    + intros [[]|H]. right. eauto.
    + intros [[[=] _]|(s' & [= <-] & H)]; auto.
  - rewrite bs_insert_in. simpl. split.
    + intros [->|[]]. auto.
    + intros [[_ ->]|(s' & [=] & _)]; auto.
Qed.

Lemma first_of_one_sorted first (X : T) : sorted (first_of first [X]).
Proof.
  unfold first_of. simpl. destruct (bm_get X first) as [s|].
  - apply bs_extend_sorted. exact I.
  - apply bs_insert_sorted. exact I.
Qed.
End Closure.
