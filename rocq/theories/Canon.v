(** The canonical collection built by Slr and Clr ([proc_closures]): invariants
    and totality (C06-C08, C40). *)
From Coq Require Import List Bool Arith Lia.
From Verif Require Import BTree Model Base Spec SpecP GrammarP FirstFollow Closure.
Import ListNotations.

Section Canon.
Context {T : Type} {OT : Ord T}.
Variables (dbg : bool) (start eof : T) (rules : rulemap T) (g : grammar T).
Hypothesis W : wf_rules rules.
Hypothesis Hg : grammar_new dbg start rules eof = Val g.
Variable lk : position T -> bset T.
Variable closure : state T -> res (state T).
Hypothesis Hc : closure_ok g lk closure.
Hypothesis Hl : lk_ok g lk.

Let Er : g_rules g = rules := proj1 (grammar_new_inv _ _ _ _ _ Hg).

Lemma Wg : wf_rules (g_rules g).
Proof. rewrite Er. exact W. Qed.

Lemma basis_vpos : vpos g (g_basis g).
Proof.
  pose proof (grammar_new_inv _ _ _ _ _ Hg) as (_ & r & p0 & ps & Es & Ep & Eb & _). rewrite Eb.
  split; [split|split]; simpl.
  - rewrite Er. eapply wf_prod_in; eauto. rewrite Ep. now left.
  - lia.
  - split; [intros ? []|exact I].
  - intros x [<-|[]]. rewrite grammar_new_symbols by eauto. right. rewrite grammar_new_terminals by eauto. auto.
Qed.

Lemma ptop_symbols p X : vpos g p -> ptop p = Some X -> In X (g_symbols g).
Proof.
  intros ([Hp _] & _) E. rewrite Er in Hp. unfold ptop, peek in E.
  eapply rhs_in_symbols; eauto. eapply nth_error_In; eauto.
Qed.

Record cinv (st : bmap (state T) nat * list (state T)) : Prop := {
  ci_sorted : msorted (fst st);
  ci_nil : bm_get (K:=state T) [] (fst st) = Some 0;
  ci_zero : exists s0, nth_error (snd st) 0 = Some s0 /\ sorted s0 /\ forall q, In q s0 <-> clo g lk [g_basis g] q;
  ci_ks : forall (k : state T) i, bm_get k (fst st) = Some i -> k <> [] ->
     0 < i /\ (exists c, nth_error (snd st) i = Some c /\ sorted c /\ forall q, In q c <-> clo g lk k q) /\
     exists j row X, j < i /\ nth_error (snd st) j = Some row /\ k = sym_filter row X;
  ci_sts : forall i, 0 < i < length (snd st) -> exists k : state T, k <> [] /\ bm_get k (fst st) = Some i;
  ci_len : length (snd st) = length (fst st);
  ci_vpos : forall i c p, nth_error (snd st) i = Some c -> In p c -> vpos g p
}.

Definition ext (st st' : bmap (state T) nat * list (state T)) : Prop :=
  (forall k i, bm_get k (fst st) = Some i -> bm_get k (fst st') = Some i) /\
  exists l, snd st' = snd st ++ l.

Lemma ext_refl st : ext st st.
Proof. split; auto. exists []. now rewrite app_nil_r. Qed.
Lemma ext_trans a b c : ext a b -> ext b c -> ext a c.
Proof.
  intros [H1 (l1 & E1)] [H2 (l2 & E2)]. split; auto. exists (l1 ++ l2). now rewrite E2, E1, app_assoc.
Qed.
Lemma ext_nth st st' i c : ext st st' -> nth_error (snd st) i = Some c -> nth_error (snd st') i = Some c.
Proof.
  intros [_ (l & ->)] E. rewrite nth_error_app1; auto. apply nth_error_Some. congruence.
Qed.

Lemma bm_insert_len {V} (k : state T) (v : V) m : bm_get k m = None -> length (bm_insert k v m) = S (length m).
Proof.
  induction m as [|[k' v'] m IH]; intros E; auto. simpl in E.
  destruct (eqb_spec k k') as [->|N]; [discriminate|]. unfold bm_insert. fold (@bm_insert (state T) V _).
  destruct (cmp k k') eqn:C; simpl; auto. apply cmp_eq in C. congruence.
Qed.

Lemma goto_kernel_spec fuel ks row X o :
  bm_get (K:=state T) [] ks = Some 0 ->
  goto_kernel closure fuel ks row X = Val o ->
  (o = None /\ exists n, bm_get (sym_filter row X) ks = Some n) \/
  (exists c, o = Some (sym_filter row X, c) /\ bm_get (sym_filter row X) ks = None /\ sym_filter row X <> [] /\
     sorted c /\ forall q, In q c <-> clo g lk (sym_filter row X) q).
Proof.
  intros Hnil E. unfold goto_kernel in E. unfold bm_mem in E.
  destruct (bm_get (sym_filter row X) ks) as [n|] eqn:Ek.
  - injection E as <-. left. eauto.
  - inv_bind E. apply (prop_closure_spec g lk) in H as (Sa & Ha & _); auto.
    assert (sym_filter row X <> []) as N by (intros E0; rewrite E0 in Ek; congruence).
    destruct a as [|a0 a].
    + exfalso. destruct (sym_filter row X) as [|p k]; [congruence|]. apply (proj2 (Ha p)). constructor. now left.
    + injection H0 as <-. right. exists (a0 :: a). auto.
Qed.

Lemma closure_total fuel seed :
  (forall p, In p seed -> vpos g p) -> sorted seed -> length (universe g) < fuel ->
  exists c, prop_closure closure fuel seed = Val c.
Proof.
  intros Hv Hs L.
  assert (Hss : sorted (g_symbols g)) by (eapply grammar_new_sorted; eauto).
  eapply (prop_closure_total g (universe g) (vpos g) lk); eauto.
  - intros p Hp. apply vpos_universe; auto. apply Wg.
  - intros p q Hp Hy. eapply yields_vpos; eauto. apply Wg.
Qed.

Lemma sym_filter_vpos row X : (forall p, In p row -> vpos g p) -> forall p, In p (sym_filter row X) -> vpos g p.
Proof.
  intros Hv p Hp. apply sym_filter_in in Hp as (p' & Hp' & Et & ->). eapply adv_vpos; eauto.
Qed.

Lemma goto_kernel_total fuel ks row X :
  (forall p, In p row -> vpos g p) -> length (universe g) < fuel ->
  exists o, goto_kernel closure fuel ks row X = Val o.
Proof.
  intros Hv L. unfold goto_kernel. destruct (bm_mem (sym_filter row X) ks); eauto.
  destruct (closure_total fuel (sym_filter row X)) as (c & ->); eauto using sym_filter_sorted, sym_filter_vpos.
  simpl. destruct c; eauto.
Qed.

Definition sym_step (fuel : nat) (row : state T) (st : bmap (state T) nat * list (state T)) (s : T) :=
  let '(ks, sts) := st in
  do o <- goto_kernel closure fuel ks row s;
    match o with
    | None => Val (ks, sts)
    | Some (kernel, closures) =>
        do _ <- dassert dbg (negb (bm_mem kernel ks));
        Val (bm_insert kernel (length sts) ks, sts ++ [closures])
    end.

Lemma sym_step_spec fuel row idx st X st' :
  cinv st -> nth_error (snd st) idx = Some row -> sym_step fuel row st X = Val st' ->
  cinv st' /\ ext st st' /\ exists n, bm_get (sym_filter row X) (fst st') = Some n.
Proof.
  destruct st as [ks sts]. intros Hci Hrow E. simpl in *. inv_bind E.
  apply goto_kernel_spec in H; [|apply (ci_nil _ Hci)].
  destruct H as [[-> Hn]|(c & -> & Hno & Hne & Hsc & Hcc)].
  - injection H0 as <-. split; auto. split; auto using ext_refl.
  - inv_bind H0. injection H1 as <-. simpl.
    assert (Hv : forall p, In p row -> vpos g p) by (intros p Hp; eapply (ci_vpos _ Hci); eauto).
    assert (Hidx : idx < length sts) by (apply nth_error_Some; congruence).
    assert (Hx : ext (ks, sts) (bm_insert (sym_filter row X) (length sts) ks, sts ++ [c])).
    { split; simpl; [|eauto]. intros k i Hk. rewrite bm_get_insert. destruct (eqb_spec k (sym_filter row X)); congruence. }
    split; [|split; [exact Hx|]].
    + constructor; simpl.
      * apply bm_insert_sorted. apply (ci_sorted _ Hci).
      * rewrite bm_get_insert_neq by congruence. apply (ci_nil _ Hci).
      * destruct (ci_zero _ Hci) as (s0 & E0 & H0). exists s0. split; auto. exact (ext_nth _ _ _ _ Hx E0).
      * intros k i Hk Nk. rewrite bm_get_insert in Hk. destruct (eqb_spec k (sym_filter row X)) as [->|N].
        -- injection Hk as <-. split; [lia|]. split.
           ++ exists c. split; auto. rewrite nth_error_app2, Nat.sub_diag; auto.
           ++ exists idx, row, X. split; auto. split; auto. rewrite nth_error_app1; auto.
        -- destruct (ci_ks _ Hci k i Hk Nk) as (H1 & (c' & H2 & H3) & (j & row' & X' & H4 & H5 & H6)).
           split; auto. split.
           ++ exists c'. split; auto. exact (ext_nth _ _ _ _ Hx H2).
           ++ exists j, row', X'. split; auto. split; auto. exact (ext_nth _ _ _ _ Hx H5).
      * intros i Hi. rewrite app_length in Hi. simpl in Hi. destruct (Nat.eq_dec i (length sts)) as [->|N].
        -- exists (sym_filter row X). split; auto. apply bm_get_insert_eq.
        -- destruct (ci_sts _ Hci i) as (k & Nk & Hk); [simpl; lia|]. exists k. split; auto.
           simpl in Hk. rewrite bm_get_insert_neq; auto. intros E; rewrite E in Hk; congruence.
      * rewrite app_length, bm_insert_len by auto. simpl. pose proof (ci_len _ Hci) as L. simpl in L. lia.
      * intros i c' p Hi Hp. destruct (Nat.eq_dec i (length sts)) as [->|N].
        -- rewrite nth_error_app2, Nat.sub_diag in Hi by auto. simpl in Hi. injection Hi as <-.
           apply Hcc in Hp. eapply clo_vpos; [apply Wg|exact Hl| |exact Hp].
           now apply sym_filter_vpos.
        -- destruct (lt_dec i (length sts)).
           ++ rewrite nth_error_app1 in Hi by auto. eapply (ci_vpos _ Hci); eauto.
           ++ exfalso. assert (nth_error (sts ++ [c]) i <> None) as N' by congruence.
              apply nth_error_Some in N'. rewrite app_length in N'. simpl in N'. lia.
    + exists (length sts). apply bm_get_insert_eq.
Qed.

Lemma sym_step_total fuel row idx st X :
  cinv st -> nth_error (snd st) idx = Some row -> length (universe g) < fuel ->
  exists st', sym_step fuel row st X = Val st'.
Proof.
  destruct st as [ks sts]. intros Hci Hrow L. simpl in *.
  assert (Hv : forall p, In p row -> vpos g p) by (intros p Hp; eapply (ci_vpos _ Hci); eauto).
  destruct (goto_kernel_total fuel ks row X Hv L) as (o & Eo). rewrite Eo. simpl.
  apply goto_kernel_spec in Eo; [|apply (ci_nil _ Hci)].
  destruct Eo as [[-> _]|(c & -> & Hno & _)]; eauto.
  unfold bm_mem. rewrite Hno. simpl. rewrite dassert_true. simpl. eauto.
Qed.

Definition row_done (st : bmap (state T) nat * list (state T)) (row : state T) (syms : list T) : Prop :=
  forall X, In X syms -> exists n, bm_get (sym_filter row X) (fst st) = Some n.

Lemma row_done_ext st st' row syms : ext st st' -> row_done st row syms -> row_done st' row syms.
Proof. intros [H _] Hd X HX. destruct (Hd X HX) as (n & Hn). eauto. Qed.

Lemma proc_syms_eq fuel syms row st :
  proc_syms dbg closure fuel syms row st = foldM (sym_step fuel row) syms st.
Proof. unfold proc_syms. apply foldM_ext. intros [ks sts] x _. reflexivity. Qed.

Lemma proc_syms_spec fuel syms row idx st st' :
  cinv st -> nth_error (snd st) idx = Some row -> proc_syms dbg closure fuel syms row st = Val st' ->
  cinv st' /\ ext st st' /\ row_done st' row syms.
Proof.
  intros Hci Hrow. rewrite proc_syms_eq. intros E.
  apply (foldM_ind _ (fun done st' => cinv st' /\ ext st st' /\ row_done st' row done)) in E; auto.
  - split; auto. split; auto using ext_refl. intros X [].
  - intros done X todo st1 st2 _ (H1 & H2 & H3) Hs.
    apply (sym_step_spec fuel row idx) in Hs as (H4 & H5 & H6); auto; [|eapply ext_nth; eauto].
    split; auto. split; [eapply ext_trans; eauto|]. intros Y HY. apply in_app_iff in HY as [HY|[<-|[]]]; auto.
    eapply row_done_ext; eauto.
Qed.

Lemma proc_syms_total fuel syms row idx st :
  cinv st -> nth_error (snd st) idx = Some row -> length (universe g) < fuel ->
  exists st', proc_syms dbg closure fuel syms row st = Val st'.
Proof.
  intros Hci Hrow L. rewrite proc_syms_eq.
  destruct (foldM_total (sym_step fuel row) (fun st' => cinv st' /\ nth_error (snd st') idx = Some row) syms st) as (st' & E & _); eauto.
  intros X st1 _ [H1 H2]. destruct (sym_step_total fuel row idx st1 X H1 H2 L) as (st2 & E). exists st2. split; auto.
  apply (sym_step_spec fuel row idx) in E as (H3 & H4 & _); auto. split; auto. eapply ext_nth; eauto.
Qed.

(** rows before [idx] are processed *)
Definition upto (st : bmap (state T) nat * list (state T)) (idx : nat) : Prop :=
  forall j row, j < idx -> nth_error (snd st) j = Some row -> row_done st row (g_symbols g).

Lemma proc_rows_spec cfuel fuel idx st st' :
  cinv st -> upto st idx -> idx <= length (snd st) ->
  proc_rows dbg closure cfuel (g_symbols g) fuel idx st = Val st' ->
  cinv st' /\ ext st st' /\ upto st' (length (snd st')).
Proof.
  revert idx st. induction fuel as [|fuel IH]; intros idx st Hci Hup Hle E; simpl in E; [discriminate|].
  destruct (nth_error (snd st) idx) as [row|] eqn:Erow.
  - inv_bind E. apply (proc_syms_spec _ _ row idx) in H as (H1 & H2 & H3); auto.
    apply IH in H0 as (H4 & H5 & H6); auto.
    + split; auto. split; auto. eapply ext_trans; eauto.
    + intros j row' Hj Ej. destruct (Nat.eq_dec j idx) as [->|N].
      * rewrite (ext_nth _ _ _ _ H2 Erow) in Ej. injection Ej as <-. exact H3.
      * assert (nth_error (snd st) j = Some row') as Ej'.
        { destruct H2 as [_ (l & E')]. rewrite E' in Ej. rewrite nth_error_app1 in Ej; auto. lia. }
        eapply row_done_ext; eauto. eapply Hup; eauto. lia.
    + destruct H2 as [_ (l & E')]. rewrite E', app_length.
      assert (idx < length (snd st)) by (apply nth_error_Some; congruence). lia.
  - injection E as <-. split; auto. split; auto using ext_refl. apply nth_error_None in Erow.
    assert (idx = length (snd st)) as <- by lia. auto.
Qed.

(** ** totality *)
Definition kbound : nat := length (sublists (bs_of_list (universe g))).

Lemma cinv_bound st : cinv st -> length (snd st) <= kbound.
Proof.
  intros Hci. rewrite (ci_len _ Hci). unfold kbound.
  assert (length (fst st) = length (bm_keys (fst st))) as -> by (unfold bm_keys; now rewrite map_length).
  assert (Hss : sorted (g_symbols g)) by (eapply grammar_new_sorted; eauto).
  apply NoDup_incl_length.
  - apply sorted_NoDup. apply (ci_sorted _ Hci).
  - intros k Hk. apply bm_get_keys in Hk as (i & Hk).
    apply sublists_in; [|apply bs_of_list_sorted|].
    + destruct k as [|p k]; [exact I|]. 
      destruct (ci_ks _ Hci _ _ Hk) as (_ & _ & (j & row & X & _ & _ & ->)); [discriminate|]. apply sym_filter_sorted.
    + intros p Hp. apply bs_of_list_in. apply vpos_universe; auto; [apply Wg|].
      assert (k <> []) as Nk by (intros ->; destruct Hp).
      destruct (ci_ks _ Hci _ _ Hk Nk) as (_ & (c & Ec & _ & Hcc) & _).
      eapply (ci_vpos _ Hci); eauto. apply Hcc. now constructor.
Qed.

Lemma proc_rows_total cfuel fuel idx st :
  cinv st -> length (universe g) < cfuel -> kbound - idx < fuel -> idx <= kbound ->
  exists st', proc_rows dbg closure cfuel (g_symbols g) fuel idx st = Val st'.
Proof.
  intros Hci Lc. revert idx st Hci. induction fuel as [|fuel IH]; intros idx st Hci Lf Hle; [lia|]. simpl.
  destruct (nth_error (snd st) idx) as [row|] eqn:Erow; eauto.
  destruct (proc_syms_total cfuel (g_symbols g) row idx st) as (st1 & E1); auto. rewrite E1. simpl.
  apply (proc_syms_spec _ _ row idx) in E1 as (H1 & H2 & _); auto.
  pose proof (cinv_bound _ Hci). assert (idx < length (snd st)) by (apply nth_error_Some; congruence).
  apply IH; auto; lia.
Qed.

Lemma cinv_init s0 : sorted s0 -> (forall q, In q s0 <-> clo g lk [g_basis g] q) ->
  cinv ([([], 0)], [s0]).
Proof.
  intros Hs H0. constructor; simpl; auto.
  - split; [intros ? []|exact I].
  - eauto.
  - intros k i Hk Nk. destruct (eqb_spec k []) as [->|]; congruence.
  - intros i Hi. lia.
  - intros [|[|i]] c p Hi Hp; simpl in Hi; try discriminate. injection Hi as <-.
    apply H0 in Hp. eapply clo_vpos; [apply Wg|exact Hl| |exact Hp]. intros q [<-|[]]. apply basis_vpos.
Qed.

(** the finished collection *)
Definition canon (ks : bmap (state T) nat) (sts : list (state T)) : Prop :=
  cinv (ks, sts) /\ forall j row X, nth_error sts j = Some row -> In X (g_symbols g) ->
     exists n, bm_get (sym_filter row X) ks = Some n.

Lemma proc_closures_spec fuel ks sts :
  proc_closures dbg closure fuel g = Val (ks, sts) -> canon ks sts.
Proof.
  unfold proc_closures. intros E. inv_bind E.
  apply (prop_closure_spec g lk) in H as (S0 & H0' & _); auto.
  apply proc_rows_spec in H0 as (H1 & H2 & H3).
  - split; auto. intros j row X Ej HX. assert (j < length sts) by (apply nth_error_Some; congruence).
    destruct (H3 j row H Ej X HX) as (n & Hn). eauto.
  - now apply cinv_init.
  - intros j row Hj. lia.
  - simpl. lia.
Qed.

Lemma proc_closures_total fuel :
  length (universe g) < fuel -> kbound < fuel -> exists r, proc_closures dbg closure fuel g = Val r.
Proof.
  intros L1 L2. unfold proc_closures.
  destruct (closure_total fuel [g_basis g]) as (s0 & E0); auto.
  - intros q [<-|[]]. apply basis_vpos.
  - split; [intros ? []|exact I].
  - rewrite E0. simpl. apply (prop_closure_spec g lk) in E0 as (S0 & H0 & _); auto.
    apply proc_rows_total; auto using cinv_init; lia.
Qed.
End Canon.
