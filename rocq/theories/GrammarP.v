(** Facts about [Grammar::new] (C01). *)
From Coq Require Import List Bool Arith Lia.
From Verif Require Import BTree Model Base Spec SpecP.
Import ListNotations.

Section GrammarP.
Context {T : Type} {OT : Ord T}.

Lemma is_terminal_term (g : grammar T) t : is_terminal g t = true <-> term (g_rules g) t.
Proof.
  unfold is_terminal, term, nonterm, bm_mem. destruct (bm_get t (g_rules g)) as [r|]; simpl; split; try congruence.
  - intros H. exfalso. apply H. eauto.
  - intros _ (r & E). discriminate.
Qed.

Lemma is_terminal_nonterm (g : grammar T) t : is_terminal g t = false <-> nonterm (g_rules g) t.
Proof.
  unfold is_terminal, nonterm, bm_mem. destruct (bm_get t (g_rules g)) as [r|]; simpl; split; try congruence; eauto.
  intros (r & E). discriminate.
Qed.

Lemma wf_in (rules : rulemap T) r : wf_rules rules -> In r (bm_values rules) <-> bm_get (r_name r) rules = Some r.
Proof.
  intros [Hs Hw]. unfold bm_values. rewrite in_map_iff. split.
  - intros ([A r'] & <- & Hin). apply bm_in_get in Hin; auto. simpl. 
    destruct (Hw _ _ Hin) as [E _]. now rewrite E.
  - intros E. apply bm_get_in in E. now exists (r_name r, r).
Qed.

Lemma prods_nth (r : rule T) l i : r_prods r = enum_from 0 l ->
  nth_error (r_prods r) i = match nth_error l i with Some x => Some (x, i) | None => None end.
Proof. intros E. rewrite E. exact (enum_from_nth l 0 i). Qed.

Lemma wf_prod_at (rules : rulemap T) A i rhs : wf_rules rules ->
  prod_at rules A i rhs <-> exists r, bm_get A rules = Some r /\ nth_error (r_prods r) i = Some (rhs, i).
Proof.
  intros [_ Hw]. split.
  - intros (r & k & E & Hn). exists r. split; auto. destruct (Hw _ _ E) as [_ (l & El)].
    apply (prods_nth r l i) in El. rewrite El in Hn |- *. destruct (nth_error l i); simpl in *; congruence.
  - intros (r & E & Hn). exists r, i. auto.
Qed.

Lemma wf_prod_in (rules : rulemap T) A r pr : wf_rules rules -> bm_get A rules = Some r ->
  In pr (r_prods r) <-> prod_at rules A (snd pr) (fst pr).
Proof.
  intros W E. split.
  - intros Hin. apply In_nth_error in Hin as (i & Hi). 
    assert (prod_at rules A i (fst pr)) as Hp.
    { exists r, (snd pr). split; auto. now destruct pr. }
    pose proof Hp as Hp'. apply wf_prod_at in Hp' as (r' & E' & Hn); auto.
    rewrite E in E'. injection E' as <-. rewrite Hi in Hn. injection Hn as ->. exact Hp.
  - intros Hp. apply wf_prod_at in Hp as (r' & E' & Hn); auto. rewrite E in E'. injection E' as <-.
    apply nth_error_In in Hn. now destruct pr.
Qed.

(** what [Grammar::new] returns *)
Lemma grammar_new_inv dbg start rules eof (g : grammar T) :
  grammar_new dbg start rules eof = Val g ->
  g_rules g = rules /\
  exists r p0 ps, bm_get start rules = Some r /\ r_prods r = p0 :: ps /\
    g_basis g = mkPos start p0 0 [eof] /\ (dbg = true -> ps = []).
Proof.
  unfold grammar_new. intros E. inv_bind E. inv_bind H0. inv_bind H2.
  apply expect_val in H. apply expect_val in H0. injection H3 as <-. simpl. split; auto.
  destruct (r_prods a) as [|p0 ps] eqn:Ep; [discriminate|]. injection H0 as <-.
  exists a, p0, ps. repeat split; auto. intros Hd. eapply dassert_val in H1; eauto.
  simpl in H1. now destruct ps.
Qed.

Lemma grammar_new_total dbg start rules (eof : T) r p0 ps :
  bm_get start rules = Some r -> r_prods r = p0 :: ps -> (dbg = true -> ps = []) ->
  exists g, grammar_new dbg start rules eof = Val g.
Proof.
  intros E Ep Hd. unfold grammar_new. rewrite E. simpl. rewrite Ep. simpl.
  destruct dbg; simpl; [|eauto]. rewrite Hd by auto. simpl. eauto.
Qed.

Lemma in_r_prods_rhs (rules : rulemap T) t : wf_rules rules ->
  (exists r rc, In r (bm_values rules) /\ In rc (r_prods r) /\ In t (fst rc)) <->
  (exists A i rhs, prod_at rules A i rhs /\ In t rhs).
Proof.
  intros W. split.
  - intros (r & rc & H1 & H2 & H3). apply wf_in in H1; auto. 
    exists (r_name r), (snd rc), (fst rc). split; auto. eapply wf_prod_in; eauto.
  - intros (A & i & rhs & Hp & Ht). apply wf_prod_at in Hp as (r & E & Hn); auto.
    destruct W as [Hs Hw]. destruct (Hw _ _ E) as [En _].
    exists r, (rhs, i). repeat split; auto.
    + apply (wf_in rules r); [now split|]. now rewrite En.
    + eapply nth_error_In; eauto.
Qed.

(** the nested loop collecting terminals *)
Lemma terminals_loop (rules : rulemap T) t :
  In t (fold_left (fun ts r =>
      fold_left (fun ts rc =>
        fold_left (fun ts term => if negb (bm_mem term rules) then bs_insert term ts else ts)
          (fst rc) ts)
        (r_prods r) ts)
      (bm_values rules) []) <->
  ~ nonterm rules t /\ exists r rc, In r (bm_values rules) /\ In rc (r_prods r) /\ In t (fst rc).
Proof.
  assert (L1 : forall l ts, In t (fold_left (fun ts term => if negb (bm_mem term rules) then bs_insert term ts else ts) l ts)
     <-> In t ts \/ (~ nonterm rules t /\ In t l)).
  { induction l as [|x l IH]; intros ts; simpl; [tauto|]. rewrite IH. clear IH.
    destruct (bm_mem x rules) eqn:E; simpl.
    - split; [tauto|]. intros [H|[N [->|H]]]; auto. exfalso. apply N. unfold nonterm, bm_mem in *.
      destruct (bm_get t rules); eauto; discriminate.
    - rewrite bs_insert_in. assert (~ nonterm rules x).
      { unfold nonterm, bm_mem in *. intros (r & Er). rewrite Er in E. discriminate. }
      split.
      + intros [[->|H']|[N H']]; auto.
      + intros [H'|[N [->|H']]]; auto. }
  assert (L2 : forall l ts, In t (fold_left (fun ts rc =>
        fold_left (fun ts term => if negb (bm_mem term rules) then bs_insert term ts else ts)
          (fst rc) ts) l ts) <-> In t ts \/ (~ nonterm rules t /\ exists rc : production T, In rc l /\ In t (fst rc))).
  { induction l as [|x l IH]; intros ts; simpl; [firstorder|]. rewrite IH, L1. clear IH. split.
    - intros [[H|[N H]]|[N (rc & H1 & H2)]]; auto; right; split; eauto.
    - intros [H|[N (rc & [<-|H1] & H2)]]; auto. right. split; eauto. }
  assert (L3 : forall l ts, In t (fold_left (fun ts r =>
      fold_left (fun ts rc =>
        fold_left (fun ts term => if negb (bm_mem term rules) then bs_insert term ts else ts)
          (fst rc) ts)
        (r_prods r) ts) l ts) <-> In t ts \/ (~ nonterm rules t /\ exists (r : rule T) rc, In r l /\ In rc (r_prods r) /\ In t (fst rc))).
  { induction l as [|x l IH]; intros ts; simpl; [firstorder|]. rewrite IH, L2. clear IH. split.
    - intros [[H|[N (rc & H1 & H2)]]|[N (r & rc & H1 & H2 & H3)]]; auto; right; split; eauto 6.
    - intros [H|[N (r & rc & [<-|H1] & H2 & H3)]]; eauto 7. }
  rewrite L3. simpl. tauto.
Qed.

Lemma grammar_new_terminals dbg start rules eof (g : grammar T) t :
  wf_rules rules -> grammar_new dbg start rules eof = Val g ->
  In t (g_terminals g) <-> t = eof \/ (term rules t /\ exists A i rhs, prod_at rules A i rhs /\ In t rhs).
Proof.
  intros W E. unfold grammar_new in E. inv_bind E. inv_bind H0. inv_bind H2.
  injection H3 as <-. simpl. rewrite bs_insert_in, terminals_loop, in_r_prods_rhs; auto. reflexivity.
Qed.

Lemma grammar_new_symbols dbg start rules eof (g : grammar T) t :
  wf_rules rules -> grammar_new dbg start rules eof = Val g ->
  In t (g_symbols g) <-> nonterm rules t \/ In t (g_terminals g).
Proof.
  intros W E. unfold grammar_new in E. inv_bind E. inv_bind H0. inv_bind H2.
  injection H3 as <-. simpl. rewrite bs_of_list_in, in_app_iff, <- bm_get_keys. reflexivity.
Qed.

Lemma grammar_new_sorted dbg start rules eof (g : grammar T) :
  grammar_new dbg start rules eof = Val g -> sorted (g_symbols g) /\ sorted (g_terminals g).
Proof.
  intros E. unfold grammar_new in E. inv_bind E. inv_bind H0. inv_bind H2. injection H3 as <-. simpl.
  split; [apply bs_of_list_sorted|]. apply bs_insert_sorted.
  assert (L1 : forall l ts, sorted ts -> sorted (fold_left (fun ts term => if negb (bm_mem term rules) then bs_insert term ts else ts) l ts)).
  { induction l as [|x l IH]; intros ts Hs; simpl; auto. apply IH. destruct (negb _); auto using bs_insert_sorted. }
  assert (L2 : forall (l : list (production T)) ts, sorted ts -> sorted (fold_left (fun ts rc =>
        fold_left (fun ts term => if negb (bm_mem term rules) then bs_insert term ts else ts)
          (fst rc) ts) l ts)).
  { induction l as [|x l IH]; intros ts Hs; simpl; auto. }
  assert (L3 : forall (l : list (rule T)) ts, sorted ts -> sorted (fold_left (fun ts r =>
      fold_left (fun ts rc =>
        fold_left (fun ts term => if negb (bm_mem term rules) then bs_insert term ts else ts)
          (fst rc) ts)
        (r_prods r) ts) l ts)).
  { induction l as [|x l IH]; intros ts Hs; simpl; auto. }
  apply L3. exact I.
Qed.

(** every symbol of a right-hand side is in [symbols] *)
Lemma rhs_in_symbols dbg start rules eof (g : grammar T) A i rhs x :
  wf_rules rules -> grammar_new dbg start rules eof = Val g ->
  prod_at rules A i rhs -> In x rhs -> In x (g_symbols g).
Proof.
  intros W E Hp Hx. rewrite grammar_new_symbols by eauto. 
  destruct (nonterm_dec rules x) as [N|N]; auto. right. 
  rewrite grammar_new_terminals by eauto. right. split; auto. eauto.
Qed.
End GrammarP.
