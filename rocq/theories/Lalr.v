(** The LALR construction ([update_state], [update_closures], [proc_closures] of
    /repo/src/lalr.rs): it terminates without panicking, and up to lookaheads it
    builds the LR(0) collection. *)
From Coq Require Import List Bool Arith Lia.
From Verif Require Import BTree Model Base Spec SpecP GrammarP FirstFollow Closure Canon ActTab LR CanonLR Merged.
Import ListNotations.

Lemma min_point {T} {OT : Ord T} (r : state T) : r <> [] ->
  exists m, (forall b, In b r -> m <= p_point b) /\ ~ (forall b, In b r -> S m <= p_point b).
Proof.
  induction r as [|b r IH]; [congruence|]. intros _. destruct r as [|c r].
  - exists (p_point b). split; [intros b' [<-|[]]; auto|]. intros H. specialize (H b (or_introl eq_refl)). lia.
  - destruct IH as (m & H1 & H2); [discriminate|]. destruct (le_lt_dec m (p_point b)) as [Hle|Hlt].
    + exists m. split; [intros b' [<-|Hb]; auto|]. intros H. apply H2. intros b' Hb. apply H. now right.
    + exists (p_point b). split; [intros b' [<-|Hb]; auto; specialize (H1 _ Hb); lia|].
      intros H. specialize (H b (or_introl eq_refl)). lia.
Qed.

Section MSum.
Context {K V : Type} {OK : Ord K}.
Variable w : V -> nat.
Definition msum (m : bmap K V) : nat := list_sum (map (fun e => w (snd e)) m).

Lemma bm_insert_cons (k k' : K) (v v' : V) m : bm_insert k v ((k', v') :: m) =
  match cmp k k' with Lt => (k, v) :: (k', v') :: m | Eq => (k, v) :: m | Gt => (k', v') :: bm_insert k v m end.
Proof. reflexivity. Qed.

Lemma msum_new k v m : bm_get k m = None -> msum (bm_insert k v m) = w v + msum m.
Proof.
  unfold msum. induction m as [|[k' v'] m IH]; intros E; auto. cbn [bm_get] in E. rewrite bm_insert_cons.
  destruct (eqb_spec k k') as [->|N]; [discriminate|].
  destruct (cmp k k') eqn:C; [apply cmp_eq in C; congruence|reflexivity|].
  cbn [map list_sum fold_right snd]. specialize (IH E). unfold list_sum in *. lia.
Qed.

Lemma msum_old k v v0 m : msorted m -> bm_get k m = Some v0 -> msum (bm_insert k v m) + w v0 = w v + msum m.
Proof.
  unfold msum. induction m as [|[k' v'] m IH]; intros Hs E; [discriminate|]. cbn [bm_get] in E. rewrite bm_insert_cons.
  destruct (eqb_spec k k') as [->|N].
  - injection E as ->. rewrite cmp_refl. cbn [map list_sum fold_right snd]. lia.
  - destruct Hs as [Hk Hs]. destruct (cmp k k') eqn:C.
    + apply cmp_eq in C. congruence.
    + exfalso. assert (In k (map fst m)) as Hin by (apply bm_get_keys; eauto). apply Hk in Hin.
      pose proof (cmp_trans _ _ _ C Hin) as D. now rewrite cmp_refl in D.
    + cbn [map list_sum fold_right snd]. specialize (IH Hs E). unfold list_sum in *. lia.
Qed.

Lemma bm_insert_len_old (k : K) (v v0 : V) m : msorted m -> bm_get k m = Some v0 -> length (bm_insert k v m) = length m.
Proof.
  induction m as [|[k' v'] m IH]; intros Hs E; [discriminate|]. cbn [bm_get] in E. rewrite bm_insert_cons.
  destruct (eqb_spec k k') as [->|N].
  - rewrite cmp_refl. reflexivity.
  - destruct Hs as [Hk Hs]. destruct (cmp k k') eqn:C.
    + apply cmp_eq in C. congruence.
    + exfalso. assert (In k (map fst m)) as Hin by (apply bm_get_keys; eauto). apply Hk in Hin.
      pose proof (cmp_trans _ _ _ C Hin) as D. now rewrite cmp_refl in D.
    + simpl. auto.
Qed.

Lemma bm_remove_sorted (k : K) (m : bmap K V) : msorted m -> msorted (bm_remove k m).
Proof.
  unfold msorted, bm_remove. intros Hs. induction m as [|[k' v'] m IH]; auto. destruct Hs as [Hk Hs]. simpl.
  destruct (eqb k k'); simpl; auto. split; auto. intros z Hz. apply Hk. apply in_map_iff in Hz as (e & <- & He).
  apply filter_In in He as [He _]. now apply in_map.
Qed.
End MSum.

Section Lalr.
Context {T : Type} {OT : Ord T}.
Variables (dbg : bool) (start eof : T) (rules : rulemap T) (g : grammar T).
Hypothesis W : wf_rules rules.
Hypothesis Hg : grammar_new dbg start rules eof = Val g.
Variable lk : position T -> bset T.
Variable closure : state T -> res (state T).
Hypothesis Hc : closure_ok g lk closure.
Hypothesis Hl : lk_ok g lk.

(** a predicate on positions that the construction preserves *)
Variable V : position T -> Prop.
Hypothesis Vv : forall p, V p -> vpos g p.
Hypothesis Vy : forall p q, V p -> yields g lk p q -> V q.
Hypothesis Va : forall p X, V p -> ptop p = Some X -> V (adv p).
Hypothesis Vm : forall p, sorted (p_look p) -> (exists q, V q /\ no_look q = no_look p /\ incl (p_look q) (p_look p)) ->
  (forall t, In t (p_look p) -> exists q, V q /\ no_look q = no_look p /\ In t (p_look q)) -> V p.
Hypothesis Vb : V (g_basis g).
(** a predicate on rows that closures have and merging preserves *)
Variable R : state T -> Prop.
Hypothesis Rc : forall seed c, (forall b, In b seed -> V b) -> sorted c -> (forall q, In q c <-> clo g lk seed q) -> R c.
Hypothesis Rm : forall c c' : state T, R c -> R c' -> (forall b, In b c -> V b) -> (forall b, In b c' -> V b) ->
  R (merged (bs_of_list (c ++ c'))).

Implicit Types (p : lalr T) (r k row c : state T) (b : position T).
Notation wl := without_look.
Notation rget r p := (bm_get (K:=state T) r (l_raws p)).
Notation kget k p := (bm_get (K:=state T) k (l_kernels p)).
Notation sts p n := (nth_error (l_states p) n).

Lemma merged_V s : (forall b, In b s -> V b) -> forall b, In b (merged s) -> V b.
Proof.
  intros Hs b Hb. pose proof (merged_spec s) as M. apply Vm.
  - eapply (mo_looks _ _ M); eauto. intros q Hq. apply Vv; auto.
  - destruct (proj1 (mo_body _ _ M (no_look b))) as (q & Hq & Eq); eauto. exists q. split; auto. split; auto.
    intros t Ht. apply (mo_look _ _ M); eauto.
  - intros t Ht. apply (mo_look _ _ M) in Ht as (q & H1 & H2 & H3); eauto.
Qed.

Lemma clo_V seed : (forall b, In b seed -> V b) -> forall b, clo g lk seed b -> V b.
Proof. intros H b. induction 1; eauto. Qed.

Lemma sym_filter_V row X : (forall b, In b row -> V b) -> forall b, In b (sym_filter row X) -> V b.
Proof. intros H b Hb. apply sym_filter_in in Hb as (q & Hq & Et & ->). eauto. Qed.

Record raw_ok p r k : Prop := {
  ro_wl : wl k = r;
  ro_sorted : sorted k;
  ro_V : forall b, In b k -> V b /\ 0 < p_point b;
  ro_row : exists n row, kget k p = Some n /\ 0 < n /\ sts p n = Some row /\ (forall b, In b (wl row) <-> clo g slr_lk r b) /\
      exists j row' X, j < n /\ sts p j = Some row' /\ r = sym_filter (wl row') X
}.

Record linv p : Prop := {
  li_ks : msorted (l_kernels p);
  li_rs : msorted (l_raws p);
  li_nil : kget [] p = Some 0;
  li_rnil : exists s0, rget [] p = Some s0 /\ forall b, In b s0 -> V b;
  li_zero : exists s0, sts p 0 = Some s0 /\ sorted s0 /\ forall q, In q s0 <-> clo g lk [g_basis g] q;
  li_raw : forall r k, rget r p = Some k -> r <> [] -> raw_ok p r k;
  li_ker : forall k n, kget k p = Some n -> k <> [] -> rget (wl k) p = Some k;
  li_sts : forall i, 0 < i < length (l_states p) -> exists k, k <> [] /\ kget k p = Some i;
  li_len : length (l_states p) = length (l_raws p);
  li_V : forall i c b, sts p i = Some c -> In b c -> V b;
  li_sorted : forall i c, sts p i = Some c -> sorted c;
  li_R : forall i c, sts p i = Some c -> R c
}.

Record lext p p' : Prop := {
  lx_row : forall i row, sts p i = Some row -> exists row', sts p' i = Some row' /\ wl row' = wl row;
  lx_raw : forall r k n, r <> [] -> rget r p = Some k -> kget k p = Some n -> exists k', rget r p' = Some k' /\ kget k' p' = Some n
}.

Lemma lext_refl p : lext p p.
Proof. constructor; eauto. Qed.
Lemma lext_trans (p1 p2 p3 : lalr T) : lext p1 p2 -> lext p2 p3 -> lext p1 p3.
Proof.
  intros [H1 H2] [H3 H4]. constructor.
  - intros i row E. apply H1 in E as (r1 & E1 & F1). apply H3 in E1 as (r2 & E2 & F2). exists r2. split; congruence.
  - intros r k n N E1 E2. destruct (H2 _ _ _ N E1 E2) as (k1 & E3 & E4). eauto.
Qed.

Lemma wl_ne k : k <> [] -> wl k <> [].
Proof. intros N E. apply N. now apply (proj1 (without_look_nil k)). Qed.

Lemma raw_ne p r k : linv p -> rget r p = Some k -> r <> [] -> k <> [].
Proof. intros I E N ->. apply N. destruct (li_raw _ I _ _ E N) as [<- _ _ _]. reflexivity. Qed.

(** the raw kernel can be read off the row *)
Lemma row_raw r s : (forall b, In b s <-> clo g slr_lk r b) -> (forall b, In b r -> 0 < p_point b) ->
  forall b, In b r <-> In b s /\ 0 < p_point b.
Proof.
  intros Hs Hr b. split.
  - intros Hb. split; auto. apply Hs. now constructor.
  - intros [Hb Hp]. apply Hs in Hb. apply clo_point in Hb as [Hb|Hb]; auto. lia.
Qed.

Lemma raw_pos p r k : linv p -> rget r p = Some k -> r <> [] -> forall b, In b r -> 0 < p_point b.
Proof.
  intros I E N b Hb. destruct (li_raw _ I _ _ E N) as [<- _ H _]. apply without_look_in in Hb as (q & Hq & <-).
  apply H in Hq as [_ Hq]. exact Hq.
Qed.

Lemma raw_inj p r1 r2 k1 k2 n : linv p -> r1 <> [] -> r2 <> [] -> rget r1 p = Some k1 -> rget r2 p = Some k2 ->
  kget k1 p = Some n -> kget k2 p = Some n -> r1 = r2.
Proof.
  intros I N1 N2 E1 E2 K1 K2. pose proof (raw_pos _ _ _ I E1 N1) as P1. pose proof (raw_pos _ _ _ I E2 N2) as P2.
  destruct (li_raw _ I _ _ E1 N1) as [w1 _ _ (n1 & row1 & A1 & _ & B1 & C1 & _)].
  destruct (li_raw _ I _ _ E2 N2) as [w2 _ _ (n2 & row2 & A2 & _ & B2 & C2 & _)].
  assert (row1 = row2) by congruence. subst row2.
  apply sorted_ext; [rewrite <- w1; apply without_look_sorted|rewrite <- w2; apply without_look_sorted|].
  intros b. rewrite (row_raw _ _ C1 P1 b), (row_raw _ _ C2 P2 b). reflexivity.
Qed.

(** ** the measure *)
Definition pairs (k : state T) : list (position T * T) :=
  bs_of_list (flat_map (fun b => map (fun t => (no_look b, t)) (p_look b)) k).

Lemma pairs_in k b t : In (b, t) (pairs k) <-> exists q, In q k /\ no_look q = b /\ In t (p_look q).
Proof.
  unfold pairs. rewrite bs_of_list_in, in_flat_map. split.
  - intros (q & Hq & H). apply in_map_iff in H as (t' & [= <- <-] & Ht). eauto.
  - intros (q & Hq & <- & Ht). exists q. split; auto. apply in_map_iff. eauto.
Qed.

Definition PB : nat := length (list_prod (universe g) (g_symbols g)).
Definition wt (k : state T) : nat := 2 * (PB - length (pairs k)) + (if eqb (merged k) k then 0 else 1).
Definition KB : nat := kbound g.
Definition mu (p : lalr T) : nat := (KB - length (l_raws p)) * (2 * PB + 2) + msum wt (l_raws p).

Let Er : g_rules g = rules := proj1 (grammar_new_inv _ _ _ _ _ Hg).
Let Wg' : wf_rules (g_rules g).
Proof. rewrite Er. exact W. Qed.
Let Hss : sorted (g_symbols g).
Proof. eapply grammar_new_sorted; eauto. Qed.

Lemma V_nl_universe b : V b -> In (no_look b) (universe g).
Proof.
  intros Hb. apply Vv in Hb as (Hb & _). apply vpos_universe; auto. split; [exact Hb|].
  split; [exact I|intros ? []].
Qed.

Lemma pairs_bound k : (forall b, In b k -> V b) -> length (pairs k) <= PB.
Proof.
  intros H. apply NoDup_incl_length; [apply sorted_NoDup, bs_of_list_sorted|].
  intros [b t] Hin. apply pairs_in in Hin as (q & Hq & <- & Ht). apply in_prod; [now apply V_nl_universe; auto|].
  destruct (Vv _ (H _ Hq)) as (_ & _ & Hi). auto.
Qed.

Lemma wt_le k : wt k <= 2 * PB + 1.
Proof. unfold wt. destruct (eqb _ _); lia. Qed.

Lemma linv_bound p : linv p -> length (l_raws p) <= KB.
Proof.
  intros I. unfold KB, kbound.
  assert (length (l_raws p) = length (bm_keys (l_raws p))) as -> by (unfold bm_keys; now rewrite map_length).
  apply NoDup_incl_length; [apply sorted_NoDup, (li_rs _ I)|].
  intros r Hr. apply bm_get_keys in Hr as (k & Hr). apply sublists_in; [|apply bs_of_list_sorted|].
  - destruct r as [|b r]; [exact Logic.I|]. destruct (li_raw _ I _ _ Hr) as [<- _ _ _]; [discriminate|]. apply without_look_sorted.
  - intros b Hb. assert (r <> []) as N by (intros ->; destruct Hb).
    destruct (li_raw _ I _ _ Hr N) as [<- _ HV _]. apply without_look_in in Hb as (q & Hq & <-).
    apply bs_of_list_in, V_nl_universe, HV. auto.
Qed.

Definition upd_pre p (main inc cl : state T) : Prop :=
  linv p /\ main <> [] /\ rget (wl main) p = Some main /\ wl inc = wl main /\ (forall b, In b inc -> V b) /\
  sorted cl /\ (forall q, In q cl <-> clo g lk inc q).

Lemma wt_dec (main inc : state T) : (forall b, In b inc -> V b) -> (forall b, In b main -> V b) -> wl inc = wl main ->
  merged (bs_of_list (inc ++ main)) <> main ->
  wt (merged (bs_of_list (inc ++ main))) < wt main.
Proof.
  intros Hi Hm Ew N. set (s := bs_of_list (inc ++ main)) in *.
  assert (forall b, In b s -> V b) as HsV.
  { intros b Hb. apply bs_of_list_in, in_app_iff in Hb as [|]; auto. }
  assert (forall b, In b s -> sorted (p_look b)) as Hsl by (intros b Hb; apply Vv; auto).
  pose proof (merged_spec s) as M.
  assert (incl (pairs main) (pairs (merged s))) as Hin.
  { intros [b t] Hbt. apply pairs_in in Hbt as (q & Hq & <- & Ht).
    assert (In q s) as Hqs by (apply bs_of_list_in, in_app_iff; auto).
    destruct (proj2 (mo_body _ _ M (no_look q))) as (q' & Hq' & Eq); eauto.
    apply pairs_in. exists q'. split; auto. split; auto. apply (mo_look _ _ M); eauto. }
  pose proof (pairs_bound (merged s) (merged_V s HsV)) as B1.
  pose proof (pairs_bound main Hm) as B2.
  assert (length (pairs main) <= length (pairs (merged s))) as L1.
  { apply NoDup_incl_length; auto. apply sorted_NoDup, bs_of_list_sorted. }
  unfold wt. rewrite (merged_idem s Hsl), eqb_refl.
  destruct (le_lt_dec (length (pairs (merged s))) (length (pairs main))) as [L2|L2]; [|match goal with |- context [if ?c then _ else _] => destruct c end; lia].
  assert (pairs main = pairs (merged s)) as Ep by (apply sorted_incl_eq; auto; apply bs_of_list_sorted).
  assert (merged s = merged main) as Em.
  { rewrite <- (merged_idem s Hsl). apply merged_ext.
    - intros b Hb. apply Vv. eapply merged_V; eauto.
    - intros b Hb. apply Vv; auto.
    - intros b. rewrite (mo_body _ _ M). rewrite <- !without_look_in. subst s. rewrite without_look_app; auto. reflexivity.
    - intros b t. rewrite <- !pairs_in, Ep. reflexivity. }
  destruct (eqb_spec (merged main) main) as [E|N']; [congruence|]. rewrite Ep. lia.
Qed.

Lemma update_state_cases p main inc cl : upd_pre p main inc cl ->
  update_state dbg p main inc cl = Val (p, None) \/
  exists nk p', update_state dbg p main inc cl = Val (p', Some nk) /\ linv p' /\ lext p p' /\ wl nk = wl main /\
    l_raws p' = bm_insert (wl main) nk (l_raws p) /\ mu p' < mu p.
Proof.
  intros (I & Nm & Hr & Ew & HiV & Hsc & Hcl). pose proof (wl_ne _ Nm) as Nw.
  destruct (li_raw _ I _ _ Hr Nw) as [_ Sm HmV (n & row & Hk & Hn & Erow & Hrow & Hj)].
  unfold update_state. rewrite Hk. set (s := bs_of_list (inc ++ main)).
  destruct (eqb_spec (merged s) main) as [E|N]; auto. right. rewrite Erow. cbn [expect bind].
  assert (wl s = wl main) as Es by (now apply without_look_app).
  assert (wl (merged s) = wl main) as En by (now rewrite without_look_merged).
  assert (merged s <> []) as Nn by (intros E0; rewrite E0 in En; apply Nw; rewrite <- En; reflexivity).
  assert (bm_get (merged s) (l_kernels p) = None) as Hno.
  { destruct (bm_get (merged s) (l_kernels p)) as [i|] eqn:E; auto. exfalso.
    pose proof (li_ker _ I _ _ E Nn) as E'. rewrite En in E'. congruence. }
  assert (bm_mem (merged s) (bm_remove main (l_kernels p)) = false) as ->.
  { unfold bm_mem. rewrite bm_get_remove. destruct (eqb _ _); [reflexivity|]. now rewrite Hno. }
  rewrite dassert_true. cbn [bind negb]. rewrite En.
  eexists (merged s), _. split; [reflexivity|].
  set (row' := merged (bs_of_list (row ++ cl))).
  assert (wl row' = wl row) as Erw.
  { unfold row'. rewrite without_look_merged. rewrite without_look_app.
    - apply sorted_ext; auto using without_look_sorted. intros b. rewrite Hrow, <- Ew, <- clo_bodies, without_look_in.
      split; intros (q & Hq & Eq); exists q; split; auto; now apply Hcl.
    - symmetry. apply sorted_ext; auto using without_look_sorted. intros b. rewrite Hrow, <- Ew, <- clo_bodies, without_look_in.
      split; intros (q & Hq & Eq); exists q; split; auto; now apply Hcl. }
  set (p' := mkLalr _ _ _).
  assert (forall i c, sts p i = Some c -> exists c', sts p' i = Some c' /\ wl c' = wl c) as Hxr.
  { intros i c Ei. unfold p'. cbn [l_states]. rewrite set_nth_nth, Ei. destruct (Nat.eqb_spec n i) as [->|]; eauto.
    exists row'. split; auto. congruence. }
  assert (forall i c, sts p' i = Some c -> exists c0, sts p i = Some c0 /\ wl c = wl c0) as Hxr'.
  { intros i c. unfold p'. cbn [l_states]. rewrite set_nth_nth. destruct (Nat.eqb_spec n i) as [<-|]; eauto.
    rewrite Erow. intros [= <-]. eauto. }
  assert (forall k, kget k p' = if eqb k (merged s) then Some n else if eqb k main then None else kget k p) as Hkg.
  { intros k. unfold p'. cbn [l_kernels]. rewrite bm_get_insert, bm_get_remove. reflexivity. }
  assert (forall r, rget r p' = if eqb r (wl main) then Some (merged s) else rget r p) as Hrg.
  { intros r. unfold p'. cbn [l_raws]. apply bm_get_insert. }
  assert (forall b, In b s -> V b /\ 0 < p_point b) as HsV.
  { intros b Hb. apply bs_of_list_in, in_app_iff in Hb as [Hb|Hb]; auto. split; auto.
    assert (In (no_look b) (wl main)) as Hb' by (rewrite <- Ew; apply without_look_in; eauto).
    apply without_look_in in Hb' as (q & Hq & Eq). apply HmV in Hq as [_ Hq].
    change (p_point b) with (p_point (no_look b)). rewrite <- Eq. exact Hq. }
  assert (forall r k, r <> [] -> r <> wl main -> rget r p = Some k -> k <> merged s /\ k <> main) as Hoth.
  { intros r k N1 N2 Ek. destruct (li_raw _ I _ _ Ek N1) as [Ewk _ _ _]. split; intros ->; congruence. }
  assert (lext p p') as Hx.
  { constructor; auto. intros r k i N1 E1 E2. rewrite Hrg. destruct (eqb_spec r (wl main)) as [->|N2].
    - exists (merged s). rewrite Hkg, eqb_refl. split; auto. congruence.
    - exists k. split; auto. rewrite Hkg. destruct (Hoth r k N1 N2 E1) as [O1 O2].
      apply eqb_neq in O1, O2. rewrite O1, O2. exact E2. }
  assert (forall r i, (exists j c X, j < i /\ sts p j = Some c /\ r = sym_filter (wl c) X) ->
    exists j c X, j < i /\ sts p' j = Some c /\ r = sym_filter (wl c) X) as Hjj.
  { intros r i (j & c & X & H1 & H2 & H3). destruct (Hxr _ _ H2) as (c' & H4 & H5). exists j, c', X. rewrite H5. auto. }
  split; [|split; [exact Hx|split; [exact En|split; [reflexivity|]]]].
  - constructor.
    + apply bm_insert_sorted, bm_remove_sorted, (li_ks _ I).
    + apply bm_insert_sorted, (li_rs _ I).
    + rewrite Hkg. destruct (eqb_spec ([] : state T) (merged s)); [congruence|]. destruct (eqb_spec ([] : state T) main); [congruence|]. apply (li_nil _ I).
    + destruct (li_rnil _ I) as (s0 & E0 & H0). exists s0. split; auto. rewrite Hrg. destruct (eqb_spec ([] : state T) (wl main)); congruence.
    + destruct (li_zero _ I) as (s0 & E0 & H0). exists s0. split; auto. unfold p'. cbn [l_states]. rewrite set_nth_nth.
      destruct (Nat.eqb_spec n 0); [lia|]. exact E0.
    + intros r k Ek N1. rewrite Hrg in Ek. destruct (eqb_spec r (wl main)) as [->|N2].
      * injection Ek as <-. constructor; auto.
        -- apply (mo_sorted _ _ (merged_spec s)).
        -- intros b Hb. split; [apply (merged_V s); [intros q Hq; now apply HsV|exact Hb]|].
           destruct (proj1 (mo_body _ _ (merged_spec s) (no_look b))) as (q & Hq & Eq); eauto. apply HsV in Hq as [_ Hq].
           change (p_point b) with (p_point (no_look b)). rewrite <- Eq. exact Hq.
        -- destruct (Hxr _ _ Erow) as (c' & Ec & Ecw). exists n, c'. rewrite Hkg, eqb_refl, Ecw. split; [auto|split; [auto|split; [auto|split; [auto|]]]]. apply Hjj. exact Hj.
      * destruct (li_raw _ I _ _ Ek N1) as [A1 A2 A3 (n' & row1 & A4 & A5 & A6 & A7 & A8)]. constructor; auto.
        destruct (Hxr _ _ A6) as (c' & Ec & Ecw). exists n', c'. rewrite Ecw. split; [|split; [auto|split; [auto|split; [auto|apply Hjj; exact A8]]]].
        rewrite Hkg. destruct (Hoth r k N1 N2 Ek) as [O1 O2]. apply eqb_neq in O1, O2. rewrite O1, O2. exact A4.
    + intros k i Ek N1. rewrite Hkg in Ek. rewrite Hrg. destruct (eqb_spec k (merged s)) as [->|N2].
      * now rewrite En, eqb_refl.
      * destruct (eqb_spec k main) as [->|N3]; [discriminate|]. pose proof (li_ker _ I _ _ Ek N1) as Ek'.
        destruct (eqb_spec (wl k) (wl main)); congruence.
    + intros i Hi. unfold p' in Hi. cbn [l_states] in Hi. rewrite set_nth_length in Hi.
      destruct (li_sts _ I i Hi) as (k & N1 & Ek). destruct (ord_dec k main) as [->|N2].
      * exists (merged s). split; auto. rewrite Hkg, eqb_refl. congruence.
      * exists k. split; auto. rewrite Hkg. destruct (eqb_spec k (merged s)); [congruence|]. apply eqb_neq in N2. rewrite N2. exact Ek.
    + unfold p'. cbn [l_states l_raws]. rewrite set_nth_length, (bm_insert_len_old _ _ main); auto using (li_rs _ I). apply (li_len _ I).
    + intros i c b. unfold p'. cbn [l_states]. rewrite set_nth_nth. destruct (Nat.eqb_spec n i) as [<-|]; [|apply (li_V _ I)].
      rewrite Erow. intros [= <-]. apply merged_V. intros q Hq. apply bs_of_list_in, in_app_iff in Hq as [Hq|Hq].
      * eapply (li_V _ I); eauto.
      * apply Hcl in Hq. eapply clo_V; eauto.
    + intros i c. unfold p'. cbn [l_states]. rewrite set_nth_nth. destruct (Nat.eqb_spec n i) as [<-|]; [|apply (li_sorted _ I)].
      rewrite Erow. intros [= <-]. apply (mo_sorted _ _ (merged_spec _)).
    + intros i c. unfold p'. cbn [l_states]. rewrite set_nth_nth. destruct (Nat.eqb_spec n i) as [<-|]; [|apply (li_R _ I)].
      rewrite Erow. intros [= <-]. apply Rm; eauto using (li_R _ I), (li_V _ I).
      intros b Hb. apply Hcl in Hb. eapply clo_V; eauto.
  - unfold mu, p'. cbn [l_raws]. rewrite (bm_insert_len_old _ _ main); auto using (li_rs _ I).
    pose proof (msum_old wt (wl main) (merged s) main (l_raws p) (li_rs _ I) Hr) as Hsum.
    assert (wt (merged s) < wt main) by (apply wt_dec; auto; intros b Hb; now apply HmV). lia.
Qed.

(** ** [update_closures] *)
Fixpoint rgo (uc : lalr T -> state T -> state T -> state T -> res (lalr T * option (state T)))
    (rg : lalr T -> nat -> state T -> res (lalr T * state T)) (cfuel id : nat) (nk0 : state T) (ss : list T) (p : lalr T) : res (lalr T * state T) :=
  match ss with
  | [] => Val (p, nk0)
  | s :: ss' =>
      do o <- goto_kernel closure cfuel (l_kernels p) nk0 s;
      match o with
      | None => rgo uc rg cfuel id nk0 ss' p
      | Some (kernel, closures) =>
          match bm_get (wl kernel) (l_raws p) with
          | None => rgo uc rg cfuel id nk0 ss' p
          | Some main_kernel =>
              do '(p', o') <- uc p main_kernel kernel closures;
              match o' with
              | None => rgo uc rg cfuel id nk0 ss' p'
              | Some nk =>
                  do updated_state <- expect P_index (bm_get nk (l_kernels p'));
                  if Nat.eqb updated_state id && negb (eqb nk nk0)
                  then rg p' id nk
                  else rgo uc rg cfuel id nk0 ss' p'
              end
          end
      end
  end.

Lemma regen_S cfuel syms fuel p id nk : regen dbg closure cfuel syms (S fuel) p id nk =
  rgo (update_closures dbg closure cfuel syms fuel) (regen dbg closure cfuel syms fuel) cfuel id nk syms p.
Proof.
  set (F := fix go (ss : list T) (p : lalr T) {struct ss} : res (lalr T * state T) :=
    match ss with
    | [] => Val (p, nk)
    | s :: ss' =>
        do o <- goto_kernel closure cfuel (l_kernels p) nk s;
        match o with
        | None => go ss' p
        | Some (kernel, closures) =>
            match bm_get (without_look kernel) (l_raws p) with
            | None => go ss' p
            | Some main_kernel =>
                do '(p', o') <- update_closures dbg closure cfuel syms fuel p main_kernel kernel closures;
                match o' with
                | None => go ss' p'
                | Some nk' =>
                    do updated_state <- expect P_index (bm_get nk' (l_kernels p'));
                    if Nat.eqb updated_state id && negb (eqb nk' nk)
                    then regen dbg closure cfuel syms fuel p' id nk'
                    else go ss' p'
                end
            end
        end
    end).
  change (F syms p = rgo (update_closures dbg closure cfuel syms fuel) (regen dbg closure cfuel syms fuel) cfuel id nk syms p).
  assert (H : forall ss p, F ss p = rgo (update_closures dbg closure cfuel syms fuel) (regen dbg closure cfuel syms fuel) cfuel id nk ss p); [|apply H].
  clear p. induction ss as [|X ss IH]; intros p; [reflexivity|]. cbn [rgo]. unfold F at 1. cbv fix beta iota. fold F.
  destruct (goto_kernel closure cfuel (l_kernels p) nk X) as [[[kernel c]|]| |]; cbn [bind]; auto.
  destruct (bm_get (wl kernel) (l_raws p)) as [main|]; auto.
  destruct (update_closures dbg closure cfuel syms fuel p main kernel c) as [[p' [nk'|]]| |]; cbn [bind]; auto.
  destruct (expect P_index (bm_get nk' (l_kernels p'))) as [u| |]; cbn [bind]; auto.
  destruct (Nat.eqb u id && negb (eqb nk' nk)); auto.
Qed.

Lemma update_closures_S cfuel syms fuel p main inc cl : update_closures dbg closure cfuel syms (S fuel) p main inc cl =
  do '(p1, o) <- update_state dbg p main inc cl;
  match o with
  | None => Val (p1, None)
  | Some nk =>
      do id <- expect P_index (bm_get nk (l_kernels p1));
      do '(p2, nk') <- regen dbg closure cfuel syms fuel p1 id nk; Val (p2, Some nk')
  end.
Proof. reflexivity. Qed.

Definition ge (m : nat) (r : state T) : Prop := forall b, In b r -> m <= p_point b.

Lemma ge_filter m k X : ge m (wl k) -> ge (S m) (wl (sym_filter k X)).
Proof.
  intros H b Hb. rewrite without_look_filter in Hb. apply sym_filter_in in Hb as (q & Hq & _ & ->). apply H in Hq. simpl. lia.
Qed.

Lemma ge_mono m r : ge (S m) r -> ge m r.
Proof. intros H b Hb. apply H in Hb. lia. Qed.

Definition uc_post p (main : state T) (res : lalr T * option (state T)) : Prop :=
  (snd res = None /\ fst res = p) \/
  exists nk, snd res = Some nk /\ linv (fst res) /\ lext p (fst res) /\ rget (wl main) (fst res) = Some nk /\ mu (fst res) < mu p /\
    forall m, ge m (wl main) -> forall r, r <> [] -> r <> wl main -> ~ ge (S m) r -> rget r (fst res) = rget r p.

Definition rg_pre p (id : nat) (nk : state T) : Prop :=
  linv p /\ nk <> [] /\ rget (wl nk) p = Some nk /\ kget nk p = Some id.

Definition rg_post p (nk : state T) (res : lalr T * state T) : Prop :=
  snd res = nk /\ linv (fst res) /\ lext p (fst res) /\ mu (fst res) <= mu p /\
    forall m, ge m (wl nk) -> forall r, r <> [] -> ~ ge (S m) r -> rget r (fst res) = rget r p.

Definition uc_ok (cfuel mu0 : nat) (uc : lalr T -> state T -> state T -> state T -> res (lalr T * option (state T))) : Prop :=
  forall p main inc cl, upd_pre p main inc cl -> 
    (forall x, uc p main inc cl = Val x -> uc_post p main x) /\
    (mu p < mu0 -> length (universe g) < cfuel -> exists x, uc p main inc cl = Val x).

Lemma rgo_ok uc rg cfuel id nk ss mu0 : uc_ok cfuel mu0 uc ->
  forall p, rg_pre p id nk ->
    (forall x, rgo uc rg cfuel id nk ss p = Val x -> rg_post p nk x) /\
    (mu p < mu0 -> length (universe g) < cfuel -> exists x, rgo uc rg cfuel id nk ss p = Val x).
Proof.
  intros Huc. induction ss as [|X ss IH]; intros p (Ip & Nk & Hr & Hk).
  - split.
    + intros r [= <-]. split; auto. split; auto. split; [apply lext_refl|]. split; auto.
    + simpl. eauto.
  - assert (HV : forall b, In b nk -> V b) by (intros b Hb; now apply (ro_V _ _ _ (li_raw _ Ip _ _ Hr (wl_ne _ Nk)))).
    assert (Step : forall o, goto_kernel closure cfuel (l_kernels p) nk X = Val o ->
      match o with
      | None => True
      | Some (kernel, closures) =>
          match bm_get (wl kernel) (l_raws p) with
          | None => True
          | Some main => upd_pre p main kernel closures /\ wl main = wl (sym_filter nk X)
          end
      end).
    { intros o Eo. apply (goto_kernel_spec g lk closure Hc) in Eo; [|apply (li_nil _ Ip)].
      destruct Eo as [[-> _]|(c & -> & Hno & Hne & Hsc & Hcc)]; auto.
      destruct (bm_get (wl (sym_filter nk X)) (l_raws p)) as [main|] eqn:Em; auto.
      pose proof (wl_ne _ Hne) as Nw. pose proof (ro_wl _ _ _ (li_raw _ Ip _ _ Em Nw)) as Ew. split; auto.
      split; auto. split; [intros ->; apply Nw; now rewrite <- Ew|]. split; [congruence|]. split; auto. split; auto.
      now apply sym_filter_V. }
    assert (Post : forall main kernel closures p' nk', upd_pre p main kernel closures -> wl main = wl (sym_filter nk X) ->
      uc p main kernel closures = Val (p', Some nk') ->
      rg_pre p' id nk /\ lext p p' /\ mu p' < mu p /\
      (exists u, kget nk' p' = Some u /\ u <> id) /\
      forall m, ge m (wl nk) -> forall r, r <> [] -> ~ ge (S m) r -> rget r p' = rget r p).
    { intros main kernel closures p' nk' Hpre Ewm Eu. pose proof Hpre as (_ & Nm & _).
      destruct (Huc p main kernel closures Hpre) as [H _]. apply H in Eu as [[A _]|(nk1 & A & B & C & D & E & F)]; [discriminate|].
      cbn [fst snd] in *. injection A as <-.
      assert (G : forall m, ge m (wl nk) -> forall r, r <> [] -> ~ ge (S m) r -> rget r p' = rget r p).
      { intros m Hm r Nr Hge. pose proof (ge_filter m nk X Hm) as Hm'. rewrite <- Ewm in Hm'.
        apply (F (S m)); auto.
        - intros ->. auto.
        - intros Hg'. apply Hge. now apply ge_mono. }
      destruct (min_point (wl nk) (wl_ne _ Nk)) as (m & Hm1 & Hm2).
      assert (Hr' : rget (wl nk) p' = Some nk) by (rewrite (G m Hm1 _ (wl_ne _ Nk) Hm2); exact Hr).
      destruct (lx_raw _ _ C _ _ _ (wl_ne _ Nk) Hr Hk) as (k' & E1 & E2). assert (k' = nk) by congruence. subst k'.
      split; [split; auto|]. split; auto. split; auto. split; auto.
      destruct (li_raw _ B _ _ D (wl_ne _ Nm)) as [_ _ _ (u & row & Hu & _)]. exists u. split; auto. intros ->.
      assert (wl main = wl nk) as Eq by (apply (raw_inj p' (wl main) (wl nk) nk' nk id B); auto using wl_ne).
      apply Hm2. rewrite <- Eq, Ewm. now apply ge_filter. }
    split.
    + intros r E. simpl in E. apply bind_val in E as (o & Eo & E). pose proof (Step o Eo) as S1.
      assert (HI : forall x, rgo uc rg cfuel id nk ss p = Val x -> rg_post p nk x) by (apply IH; split; auto).
      destruct o as [[kernel closures]|]; [|now apply HI].
      destruct (bm_get (wl kernel) (l_raws p)) as [main|] eqn:Em; [|now apply HI].
      destruct S1 as [Hpre Ewm]. apply bind_val in E as ([p' o'] & Eu & E).
      destruct o' as [nk'|].
      * apply bind_val in E as (u & Eu' & E). apply expect_val in Eu'.
        destruct (Post _ _ _ _ _ Hpre Ewm Eu) as (P1 & P2 & P3 & (u' & P4 & P4') & P5).
        assert (u = u') by congruence. subst u'. apply Nat.eqb_neq in P4'. rewrite P4' in E. cbn [andb] in E.
        apply (IH p' P1) in E as (Q1 & Q2 & Q3 & Q4 & Q5). split; auto. split; auto. split; [eapply lext_trans; eauto|]. split; [lia|].
        intros m Hm r' Nr Hge. rewrite (Q5 m Hm r' Nr Hge). eapply P5; eauto.
      * destruct (Huc p main kernel closures Hpre) as [H _]. apply H in Eu as [[_ A]|(nk1 & A & _)]; [|discriminate].
        cbn [fst] in A. subst p'. now apply HI.
    + intros Hmu Hcf. simpl. 
      assert (Hvr : forall b, In b nk -> vpos g b) by (intros b Hb; apply Vv; auto).
      destruct (goto_kernel_total dbg start eof rules g W Hg lk closure Hc Hl cfuel (l_kernels p) nk X Hvr Hcf) as (o & Eo).
      rewrite Eo. cbn [bind]. pose proof (Step o Eo) as S1.
      destruct (IH p) as [_ HI]; [split; auto|]. specialize (HI Hmu Hcf).
      destruct o as [[kernel closures]|]; [|exact HI].
      destruct (bm_get (wl kernel) (l_raws p)) as [main|] eqn:Em; [|exact HI].
      destruct S1 as [Hpre Ewm]. destruct (Huc p main kernel closures Hpre) as [H1 H2].
      destruct (H2 Hmu Hcf) as ([p' o'] & Eu). rewrite Eu. cbn [bind]. destruct o' as [nk'|].
      * destruct (Post _ _ _ _ _ Hpre Ewm Eu) as (P1 & P2 & P3 & (u' & P4 & P4') & P5).
        rewrite P4. cbn [expect bind]. apply Nat.eqb_neq in P4'. rewrite P4'. cbn [andb].
        apply (IH p' P1); auto. lia.
      * apply H1 in Eu as [[_ A]|(nk1 & A & _)]; [|discriminate]. cbn [fst] in A. subst p'. exact HI.
Qed.

Lemma uc_rg_ok cfuel syms fuel :
  (forall mu0, 2 * mu0 <= fuel + 1 -> uc_ok cfuel mu0 (update_closures dbg closure cfuel syms fuel)) /\
  (forall mu0, 2 * mu0 <= fuel -> forall p id nk, rg_pre p id nk ->
    (forall x, regen dbg closure cfuel syms fuel p id nk = Val x -> rg_post p nk x) /\
    (mu p < mu0 -> length (universe g) < cfuel -> exists x, regen dbg closure cfuel syms fuel p id nk = Val x)).
Proof.
  induction fuel as [|fuel [IHu IHr]].
  - split.
    + intros mu0 H p main inc cl _. split; [discriminate|]. lia.
    + intros mu0 H p id nk _. split; [discriminate|]. lia.
  - split.
    + intros mu0 H p main inc cl Hpre. rewrite update_closures_S. pose proof Hpre as (Ip & Nm & Hr & _).
      destruct (update_state_cases p main inc cl Hpre) as [E|(nk & p1 & E & I1 & X1 & W1 & R1 & M1)]; rewrite E; cbn [bind].
      { split; [|eauto]. intros r [= <-]. left. auto. }
      assert (rget (wl nk) p1 = Some nk) as Hr1 by (rewrite R1, W1; apply bm_get_insert_eq).
      assert (nk <> []) as Nn by (intros ->; apply (wl_ne _ Nm); now rewrite <- W1).
      destruct (li_raw _ I1 _ _ Hr1 (wl_ne _ Nn)) as [_ _ _ (id & row & Hk1 & _)]. rewrite Hk1. cbn [expect bind].
      assert (rg_pre p1 id nk) as Hpre1 by (split; auto).
      destruct (IHr (mu0 - 1)) with (p := p1) (id := id) (nk := nk) as [H1 H2]; auto; [lia|]. split.
      * intros r E1. apply bind_val in E1 as ([p2 nk2] & E1 & [= <-]). apply H1 in E1 as (P1 & P2 & P3 & P4 & P5).
        cbn [fst snd] in *. subst nk2. right. exists nk. cbn [fst snd]. split; auto. split; auto. split; [eapply lext_trans; eauto|].
        split; [|split; [lia|]].
        -- destruct (min_point (wl nk) (wl_ne _ Nn)) as (m & Hm1 & Hm2).
           rewrite <- W1, (P5 m Hm1 _ (wl_ne _ Nn) Hm2). exact Hr1.
        -- intros m Hm r' Nr Nw Hge. rewrite <- W1 in Hm. rewrite (P5 m Hm r' Nr Hge), R1. now apply bm_get_insert_neq.
      * intros Hmu Hcf. destruct H2 as ([p2 nk2] & E2); auto; [lia|]. rewrite E2. cbn [bind]. eauto.
    + intros mu0 H p id nk Hpre. rewrite regen_S. apply rgo_ok; auto. apply IHu. lia.
Qed.

(** ** [proc_closures] *)
Lemma lalr_syms_ok fuel syms idx row :
  (forall b, In b row -> V b) -> forall mu0, 2 * mu0 <= fuel + 1 -> forall ss p row0,
  linv p -> sts p idx = Some row0 -> wl row = wl row0 ->
  (forall p' again, lalr_syms dbg closure fuel syms idx row ss p = Val (p', again) ->
     linv p' /\ lext p p' /\ mu p' <= mu p /\ (again = true -> mu p' < mu p) /\
     (again = false -> forall X, In X ss -> sym_filter row X <> [] -> exists k, rget (wl (sym_filter row X)) p' = Some k)) /\
  (mu p < mu0 -> length (universe g) < fuel -> exists x, lalr_syms dbg closure fuel syms idx row ss p = Val x).
Proof.
  intros HV mu0 Hmu0. induction ss as [|X ss IH]; intros p row0 Ip Hrow Ew.
  - split; [|simpl; eauto]. intros p' again [= <- <-]. split; auto. split; [apply lext_refl|]. split; auto. split; [discriminate|].
    intros _ X [].
  - assert (Carry : forall p1 x, linv p1 -> lext p p1 -> mu p1 <= mu p ->
      (sym_filter row X <> [] -> exists k, rget (wl (sym_filter row X)) p1 = Some k) ->
      lalr_syms dbg closure fuel syms idx row ss p1 = Val x ->
      linv (fst x) /\ lext p (fst x) /\ mu (fst x) <= mu p /\ (snd x = true -> mu (fst x) < mu p) /\
      (snd x = false -> forall Y, In Y (X :: ss) -> sym_filter row Y <> [] -> exists k, rget (wl (sym_filter row Y)) (fst x) = Some k)).
    { intros p1 [p' again] I1 X1 M1 R1 E. destruct (lx_row _ _ X1 _ _ Hrow) as (row1 & Hrow1 & Ew1).
      apply (IH p1 row1 I1 Hrow1) in E as (A & B & C & D & F); [|congruence]. cbn [fst snd]. split; auto. split; [eapply lext_trans; eauto|].
      split; [lia|]. split; [intros Ha; specialize (D Ha); lia|]. intros Ha Y [<-|HY] NY; [|eauto].
      destruct (R1 NY) as (k & Hk). pose proof (wl_ne _ NY) as NwY.
      destruct (li_raw _ I1 _ _ Hk NwY) as [_ _ _ (n & rw & Hkn & _)].
      destruct (lx_raw _ _ B _ _ _ NwY Hk Hkn) as (k' & Hk' & _). eauto. }
    assert (CarryT : forall p1, linv p1 -> lext p p1 -> mu p1 <= mu p -> mu p < mu0 -> length (universe g) < fuel ->
      exists x, lalr_syms dbg closure fuel syms idx row ss p1 = Val x).
    { intros p1 I1 X1 M1 Hmu Hcf. destruct (lx_row _ _ X1 _ _ Hrow) as (row1 & Hrow1 & Ew1).
      destruct (IH p1 row1 I1 Hrow1) as [_ H]; [congruence|]. apply H; auto. lia. }
    cbn [lalr_syms].
    assert (Step : forall o, goto_kernel closure fuel (l_kernels p) row X = Val o ->
      match o with
      | None => sym_filter row X <> [] -> exists k, rget (wl (sym_filter row X)) p = Some k
      | Some (kernel, closures) => kernel = sym_filter row X /\ kernel <> [] /\ kget kernel p = None /\ sorted closures /\
          (forall q, In q closures <-> clo g lk kernel q) /\
          (forall main, rget (wl kernel) p = Some main -> upd_pre p main kernel closures /\ wl main = wl kernel)
      end).
    { intros o Eo. apply (goto_kernel_spec g lk closure Hc) in Eo; [|apply (li_nil _ Ip)].
      destruct Eo as [[-> (n & Hn)]|(c & -> & Hno & Hne & Hsc & Hcc)].
      - intros N. exists (sym_filter row X). eapply (li_ker _ Ip); eauto.
      - split; auto. split; auto. split; auto. split; auto. split; auto. intros main Em.
        pose proof (wl_ne _ Hne) as Nw. pose proof (ro_wl _ _ _ (li_raw _ Ip _ _ Em Nw)) as Ewm. split; auto.
        split; auto. split; [intros ->; apply Nw; now rewrite <- Ewm|]. split; [congruence|]. split; auto. split; auto.
        now apply sym_filter_V. }
    assert (New : forall kernel closures, kernel = sym_filter row X -> kernel <> [] -> kget kernel p = None -> sorted closures ->
      (forall q, In q closures <-> clo g lk kernel q) -> rget (wl kernel) p = None ->
      let p1 := mkLalr (bm_insert kernel (length (l_states p)) (l_kernels p)) (l_states p ++ [closures]) (bm_insert (wl kernel) kernel (l_raws p)) in
      linv p1 /\ lext p p1 /\ mu p1 < mu p).
    { intros k cl Ek Nk Hno Hsc Hcl Hrn p1. pose proof (wl_ne _ Nk) as Nw.
      assert (Hidx : idx < length (l_states p)) by (apply nth_error_Some; congruence).
      assert (Hkg : forall k', kget k' p1 = if eqb k' k then Some (length (l_states p)) else kget k' p) by (intros; apply bm_get_insert).
      assert (Hrg : forall r', rget r' p1 = if eqb r' (wl k) then Some k else rget r' p) by (intros; apply bm_get_insert).
      assert (Hst : forall i c, sts p i = Some c -> sts p1 i = Some c).
      { intros i c Hi. unfold p1. cbn [l_states]. rewrite nth_error_app1; auto. apply nth_error_Some. congruence. }
      assert (Hst' : forall i c, sts p1 i = Some c -> sts p i = Some c \/ (i = length (l_states p) /\ c = cl)).
      { intros i c. unfold p1. cbn [l_states]. destruct (lt_eq_lt_dec i (length (l_states p))) as [[Hi|Hi]|Hi].
        - rewrite nth_error_app1; auto.
        - subst i. rewrite nth_error_app2, Nat.sub_diag by auto. simpl. intros [= <-]. auto.
        - intros E. exfalso. assert (nth_error (l_states p ++ [cl]) i <> None) as N by congruence.
          apply nth_error_Some in N. rewrite app_length in N. simpl in N. lia. }
      assert (I1 : linv p1).
      { constructor.
        - apply bm_insert_sorted, (li_ks _ Ip).
        - apply bm_insert_sorted, (li_rs _ Ip).
        - rewrite Hkg. destruct (eqb_spec ([] : state T) k); [congruence|]. apply (li_nil _ Ip).
        - destruct (li_rnil _ Ip) as (s0 & E0 & H0). exists s0. split; auto. rewrite Hrg. destruct (eqb_spec ([] : state T) (wl k)); congruence.
        - destruct (li_zero _ Ip) as (s0 & E0 & H0). exists s0. split; auto.
        - intros r k' Hk' Nr. rewrite Hrg in Hk'. destruct (eqb_spec r (wl k)) as [->|N2].
          + injection Hk' as <-. constructor; auto.
            * rewrite Ek. apply sym_filter_sorted.
            * intros b Hb. rewrite Ek in Hb. split; [now apply (sym_filter_V row X)|].
              apply sym_filter_in in Hb as (q & _ & _ & ->). simpl. lia.
            * exists (length (l_states p)), cl. rewrite Hkg, eqb_refl. split; auto. split; [lia|]. split.
              { unfold p1. cbn [l_states]. rewrite nth_error_app2, Nat.sub_diag; auto. }
              split.
              { intros b. rewrite <- (clo_bodies g lk), without_look_in. split; intros (q & Hq & Eq); exists q; split; auto; now apply Hcl. }
              exists idx, row0, X. split; auto. split; auto. rewrite Ek, without_look_filter, Ew. reflexivity.
          + destruct (li_raw _ Ip _ _ Hk' Nr) as [A1 A2 A3 (n' & row1 & A4 & A5 & A6 & A7 & (j & row2 & Y & A8 & A9 & A10))]. constructor; auto.
            exists n', row1. split.
            * rewrite Hkg. destruct (eqb_spec k' k) as [->|]; auto. congruence.
            * split; auto. split; auto. split; auto. exists j, row2, Y. auto.
        - intros k' i Hk' Nk'. rewrite Hkg in Hk'. rewrite Hrg. destruct (eqb_spec k' k) as [->|N2].
          + now rewrite eqb_refl.
          + pose proof (li_ker _ Ip _ _ Hk' Nk') as Hr'. destruct (eqb_spec (wl k') (wl k)); congruence.
        - intros i Hi. unfold p1 in Hi. cbn [l_states] in Hi. rewrite app_length in Hi. simpl in Hi.
          destruct (Nat.eq_dec i (length (l_states p))) as [->|N2].
          + exists k. split; auto. now rewrite Hkg, eqb_refl.
          + destruct (li_sts _ Ip i) as (k' & Nk' & Hk'); [lia|]. exists k'. split; auto. rewrite Hkg. destruct (eqb_spec k' k); congruence.
        - unfold p1. cbn [l_states l_raws]. rewrite app_length, bm_insert_len by auto. simpl. rewrite (li_len _ Ip). lia.
        - intros i c b Hi Hb. apply Hst' in Hi as [Hi|[_ ->]].
          + eapply (li_V _ Ip); eauto.
          + apply Hcl in Hb. apply (clo_V k); auto. intros q Hq. rewrite Ek in Hq. now apply (sym_filter_V row X).
        - intros i c Hi. apply Hst' in Hi as [Hi|[_ ->]]; auto. eapply (li_sorted _ Ip); eauto.
        - intros i c Hi. apply Hst' in Hi as [Hi|[_ ->]]; [eapply (li_R _ Ip); eauto|].
          apply (Rc k); auto. intros q Hq. rewrite Ek in Hq. now apply (sym_filter_V row X). }
      split; auto. split.
      - constructor.
        + intros i c Hi. exists c. auto.
        + intros r k' n Nr Hr' Hk'. exists k'. rewrite Hrg, Hkg. destruct (eqb_spec r (wl k)), (eqb_spec k' k); try congruence. auto.
      - pose proof (linv_bound _ I1) as LB. revert LB. unfold mu, p1. cbn [l_raws]. rewrite bm_insert_len by auto. intros LB.
        rewrite msum_new by auto. pose proof (wt_le k).
        replace (KB - length (l_raws p)) with (S (KB - S (length (l_raws p)))) by lia.
        rewrite Nat.mul_succ_l. lia. }
    destruct (uc_rg_ok fuel syms fuel) as [Huc _]. specialize (Huc mu0 Hmu0). split.
    + intros p' again E. apply bind_val in E as (o & Eo & E). pose proof (Step o Eo) as S1.
      destruct o as [[kernel closures]|]; [|apply (Carry p (p', again)); auto using lext_refl].
      destruct S1 as (Ek & Nk & Hno & Hsc & Hcl & Hm). destruct (bm_get (wl kernel) (l_raws p)) as [main|] eqn:Em.
      * destruct (Hm main eq_refl) as [Hpre Ewm]. apply bind_val in E as ([p1 o1] & Eu & E).
        destruct (Huc p main kernel closures Hpre) as [H1 _]. apply H1 in Eu as [[A1 A2]|(nk & A1 & A2 & A3 & A4 & A5 & _)]; cbn [fst snd] in *.
        -- subst o1 p1. apply (Carry p (p', again)); auto using lext_refl. intros _. exists main. congruence.
        -- subst o1. apply bind_val in E as (j & Ej & E). destruct (Nat.eqb j idx && negb (eqb nk row)).
           ++ injection E as <- <-. split; auto. split; auto. split; [lia|]. split; auto. discriminate.
           ++ apply (Carry p1 (p', again)); auto; [lia|]. intros _. exists nk. congruence.
      * apply bind_val in E as (u & _ & E). destruct (New kernel closures Ek Nk Hno Hsc Hcl Em) as (N1 & N2 & N3).
        apply (Carry _ (p', again) N1 N2) in E; auto; [lia|]. intros _. exists kernel. rewrite <- Ek. apply bm_get_insert_eq.
    + intros Hmu Hcf.
      destruct (goto_kernel_total dbg start eof rules g W Hg lk closure Hc Hl fuel (l_kernels p) row X) as (o & Eo); auto.
      rewrite Eo. cbn [bind]. pose proof (Step o Eo) as S1.
      destruct o as [[kernel closures]|]; [|apply CarryT; auto using lext_refl].
      destruct S1 as (Ek & Nk & Hno & Hsc & Hcl & Hm). destruct (bm_get (wl kernel) (l_raws p)) as [main|] eqn:Em.
      * destruct (Hm main eq_refl) as [Hpre Ewm]. destruct (Huc p main kernel closures Hpre) as [H1 H2].
        destruct (H2 Hmu Hcf) as ([p1 o1] & Eu). rewrite Eu. cbn [bind].
        apply H1 in Eu as [[A1 A2]|(nk & A1 & A2 & A3 & A4 & A5 & _)]; cbn [fst snd] in *.
        -- subst o1 p1. apply CarryT; auto using lext_refl.
        -- subst o1. assert (wl main <> []) as Nwm by (rewrite Ewm; now apply wl_ne).
           destruct (li_raw _ A2 _ _ A4 Nwm) as [_ _ _ (j & rw & Hj & _)]. rewrite Hj. cbn [expect bind].
           destruct (Nat.eqb j idx && negb (eqb nk row)); eauto. apply CarryT; auto. lia.
      * unfold bm_mem. rewrite Hno. cbn [negb]. rewrite dassert_true. cbn [bind].
        destruct (New kernel closures Ek Nk Hno Hsc Hcl Em) as (N1 & N2 & N3). apply CarryT; auto. apply Nat.lt_le_incl; exact N3.
Qed.

Definition lupto p (idx : nat) : Prop :=
  forall j row X, j < idx -> sts p j = Some row -> In X (g_symbols g) -> sym_filter row X <> [] ->
    exists k, rget (wl (sym_filter row X)) p = Some k.

Lemma lupto_ext p p' idx : linv p -> idx <= length (l_states p) -> lext p p' -> lupto p idx -> lupto p' idx.
Proof.
  intros Ip Hle Hx Hu j row X Hj Hrow HX N.
  destruct (sts p j) as [row0|] eqn:Hrow0.
  - destruct (lx_row _ _ Hx _ _ Hrow0) as (row1 & Hrow1 & Ew). assert (row1 = row) by congruence. subst row1.
    assert (wl (sym_filter row X) = wl (sym_filter row0 X)) as Ewf by (now rewrite !without_look_filter, Ew).
    assert (sym_filter row0 X <> []) as N0.
    { intros E. apply N. apply (proj1 (without_look_nil _)). rewrite Ewf, E. reflexivity. }
    destruct (Hu j row0 X Hj Hrow0 HX N0) as (k & Hk). pose proof (wl_ne _ N0) as Nw.
    destruct (li_raw _ Ip _ _ Hk Nw) as [_ _ _ (n & rw & Hkn & _)].
    destruct (lx_raw _ _ Hx _ _ _ Nw Hk Hkn) as (k' & Hk' & _). exists k'. congruence.
  - apply nth_error_None in Hrow0. lia.
Qed.

Lemma lalr_rows_spec cfuel fuel idx p p' : linv p -> lupto p idx -> idx <= length (l_states p) ->
  lalr_rows dbg closure cfuel (g_symbols g) fuel idx p = Val p' ->
  linv p' /\ lupto p' (length (l_states p')).
Proof.
  revert idx p. induction fuel as [|fuel IH]; intros idx p Ip Hu Hle E; [discriminate|]. cbn [lalr_rows] in E.
  destruct (sts p idx) as [row|] eqn:Hrow.
  - apply bind_val in E as ([p1 again] & E1 & E).
    assert (idx < length (l_states p)) as Hlt by (apply nth_error_Some; congruence).
    destruct (lalr_syms_ok cfuel (g_symbols g) idx row) with (mu0 := 0) (ss := g_symbols g) (p := p) (row0 := row) as [H _]; auto.
    { intros b Hb. eapply (li_V _ Ip); eauto. }
    { lia. }
    apply H in E1 as (A & B & C & D & F). destruct (lx_row _ _ B _ _ Hrow) as (row1 & Hrow1 & Ew1).
    assert (idx < length (l_states p1)) as Hlt1 by (apply nth_error_Some; congruence).
    apply IH in E; [exact E|exact A| |].
    + destruct again; [exact (lupto_ext p p1 idx Ip Hle B Hu)|]. intros j row2 X Hj Hrow2 HX N.
      destruct (Nat.eq_dec j idx) as [->|Nj].
      * assert (row2 = row1) by congruence. subst row2.
        assert (wl (sym_filter row1 X) = wl (sym_filter row X)) as Ewf by (now rewrite !without_look_filter, Ew1).
        rewrite Ewf. apply F; auto. intros E0. apply N. apply (proj1 (without_look_nil _)). rewrite Ewf, E0. reflexivity.
      * eapply (lupto_ext p p1 idx); eauto. lia.
    + destruct again; lia.
  - injection E as <-. split; auto. apply nth_error_None in Hrow. assert (idx = length (l_states p)) as <- by lia. exact Hu.
Qed.

Lemma lalr_rows_total cfuel fuel idx p : linv p -> length (universe g) < cfuel -> 2 * mu p < cfuel ->
  idx <= length (l_states p) ->
  mu p * (KB + 2) + (KB + 1 - idx) < fuel -> exists p', lalr_rows dbg closure cfuel (g_symbols g) fuel idx p = Val p'.
Proof.
  revert idx p. induction fuel as [|fuel IH]; intros idx p Ip Hcf Hmu Hle Hf; [lia|]. cbn [lalr_rows].
  destruct (sts p idx) as [row|] eqn:Hrow; [|eauto].
  assert (idx < length (l_states p)) as Hlt by (apply nth_error_Some; congruence).
  pose proof (linv_bound _ Ip) as LB. rewrite <- (li_len _ Ip) in LB.
  destruct (lalr_syms_ok cfuel (g_symbols g) idx row) with (mu0 := S (mu p)) (ss := g_symbols g) (p := p) (row0 := row) as [H Ht]; auto.
  { intros b Hb. eapply (li_V _ Ip); eauto. }
  { lia. }
  destruct Ht as ([p1 again] & E1); auto. rewrite E1. cbn [bind].
  apply H in E1 as (A & B & C & D & _). destruct (lx_row _ _ B _ _ Hrow) as (row1 & Hrow1 & Ew1).
  assert (idx < length (l_states p1)) as Hlt1 by (apply nth_error_Some; congruence).
  apply IH; auto; [lia|destruct again; lia|]. destruct again.
  - specialize (D eq_refl). assert (S (mu p1) * (KB + 2) <= mu p * (KB + 2)) by (apply Nat.mul_le_mono_r; lia). lia.
  - assert (mu p1 * (KB + 2) <= mu p * (KB + 2)) by (apply Nat.mul_le_mono_r; lia). lia.
Qed.

Lemma linv_init s0 : sorted s0 -> (forall q, In q s0 <-> clo g lk [g_basis g] q) ->
  linv (mkLalr [([], 0)] [s0] [([], s0)]).
Proof.
  intros Hs H0. constructor; simpl; auto.
  - split; [intros ? []|exact I].
  - split; [intros ? []|exact I].
  - exists s0. split; auto. intros b Hb. apply H0 in Hb. eapply clo_V; [|exact Hb]. intros q [<-|[]]. exact Vb.
  - eauto.
  - intros r k Hr Nr. destruct (eqb_spec r []) as [->|]; congruence.
  - intros k n Hk Nk. destruct (eqb_spec k []) as [->|]; congruence.
  - intros i Hi. lia.
  - intros [|[|i]] c b Hi Hb; simpl in Hi; try discriminate. injection Hi as <-.
    apply H0 in Hb. eapply clo_V; [|exact Hb]. intros q [<-|[]]. exact Vb.
  - intros [|[|i]] c Hi; simpl in Hi; try discriminate. now injection Hi as <-.
  - intros [|[|i]] c Hi; simpl in Hi; try discriminate. injection Hi as <-.
    apply (Rc [g_basis g]); auto. intros q [<-|[]]. exact Vb.
Qed.

Definition lcanon p : Prop := linv p /\ lupto p (length (l_states p)).

Lemma lalr_closures_spec fuel p : lalr_closures dbg closure fuel g = Val p -> lcanon p.
Proof.
  unfold lalr_closures. intros E. apply bind_val in E as (s0 & E0 & E).
  apply (prop_closure_spec g lk) in E0 as (S0 & H0 & _); auto.
  apply lalr_rows_spec in E; auto using linv_init; [|simpl; lia]. intros j row X Hj. lia.
Qed.

Lemma lalr_closures_total : exists fuel0, forall fuel, fuel0 <= fuel -> exists p, lalr_closures dbg closure fuel g = Val p.
Proof.
  set (M := KB * (2 * PB + 2) + (2 * PB + 1)).
  exists (S (length (universe g)) + S (2 * M) + S (M * (KB + 2) + (KB + 1))). intros fuel Hf. unfold lalr_closures.
  assert (length (universe g) < fuel) as L1 by lia.
  destruct (closure_total dbg start eof rules g W Hg lk closure Hc Hl fuel [g_basis g]) as (s0 & E0); auto.
  { intros q [<-|[]]. auto. }
  { split; [intros ? []|exact I]. }
  rewrite E0. cbn [bind]. apply (prop_closure_spec g lk) in E0 as (S0 & H0 & _); auto.
  pose proof (linv_init s0 S0 H0) as I0. set (p0 := mkLalr _ _ _) in *.
  assert (mu p0 <= M) as HM.
  { unfold mu, p0, M. cbn [l_raws length]. unfold msum. cbn [map list_sum fold_right snd]. pose proof (wt_le s0).
    assert ((KB - 1) * (2 * PB + 2) <= KB * (2 * PB + 2)) by (apply Nat.mul_le_mono_r; lia). lia. }
  assert (mu p0 * (KB + 2) <= M * (KB + 2)) by (apply Nat.mul_le_mono_r; lia).
  apply lalr_rows_total; auto; try lia.
Qed.
End Lalr.
