(** How deep [update_closures] nests, that it never goes back, and how often the loop over the states turns (C133) *)
From Coq Require Import List Bool Arith Lia.
From Verif Require Import BTree Model Base Spec SpecP GrammarP FirstFollow Closure Canon ActTab LR CanonLR Merged Lalr LalrLR Interface Mono Wrap Final Dead Work WithinSpec.
Import ListNotations.

Section Depth.
Context {T : Type} {OT : Ord T}.
Variables (dbg : bool) (start eof : T) (rules : rulemap T) (g : grammar T).
Hypothesis W : wf_rules rules.
Hypothesis Hg : grammar_new dbg start rules eof = Val g.
Variable lk : position T -> bset T.
Variable closure : state T -> res (state T).
Hypothesis Hc : closure_ok g lk closure.
Hypothesis Hl : lk_ok g lk.
Variable V : position T -> Prop.
Hypothesis Vv : forall p, V p -> vpos g p.
Hypothesis Vy : forall p q, V p -> yields g lk p q -> V q.
Hypothesis Va : forall p X, V p -> ptop p = Some X -> V (adv p).
Hypothesis Vm : forall p, sorted (p_look p) -> (exists q, V q /\ no_look q = no_look p /\ incl (p_look q) (p_look p)) ->
  (forall t, In t (p_look p) -> exists q, V q /\ no_look q = no_look p /\ In t (p_look q)) -> V p.
Hypothesis Vb : V (g_basis g).
Variable R : state T -> Prop.
Hypothesis Rc : forall seed c, (forall b, In b seed -> V b) -> sorted c -> (forall q, In q c <-> clo g lk seed q) -> R c.
Hypothesis Rm : forall c c' : state T, R c -> R c' -> (forall b, In b c -> V b) -> (forall b, In b c' -> V b) ->
  R (merged (bs_of_list (c ++ c'))).
Variable N : nat.
Hypothesis HN : forall seed, sorted seed -> exists c, forall fuel, N < fuel -> prop_closure closure fuel seed = Val c.
Variable L : nat.
Hypothesis HL : forall A i rhs, prod_at rules A i rhs -> length rhs <= L.
Variables c1 c2 : nat.
Hypothesis L1 : N < c1.
Hypothesis L2 : N < c2.

Notation wl := without_look.
Notation rget r p := (bm_get (K:=state T) r (l_raws p)).
Notation kget k p := (bm_get (K:=state T) k (l_kernels p)).
Notation linv := (linv g lk V R).
Notation upd_pre := (upd_pre g lk V R).
Notation rg_pre := (rg_pre g lk V R).
Notation mu := (mu g).

Let Er : g_rules g = rules := proj1 (grammar_new_inv _ _ _ _ _ Hg).

Lemma V_short b : V b -> p_point b <= L.
Proof. intros H. apply Vv in H as ([H1 H2] & _). rewrite Er in H1. apply HL in H1. lia. Qed.

Lemma ge_short m k : k <> [] -> (forall b, In b k -> V b) -> ge m (wl k) -> m <= L.
Proof.
  intros Nk HV H. destruct k as [|b k]; [congruence|]. assert (In (no_look b) (wl (b :: k))) as Hb by (apply without_look_in; exists b; split; [now left|reflexivity]).
  apply H in Hb. pose proof (V_short b (HV b (or_introl eq_refl))). cbn in Hb. lia.
Qed.

(** the loop of [renew] *)
Fixpoint ngo (rn : lalr T -> state T -> state T -> state T -> res (lalr T * option (state T))) (nk : state T) (ss : list T) (p : lalr T) : res (lalr T) :=
  match ss with
  | [] => Val p
  | s :: ss' =>
      do o <- goto_kernel closure c2 (l_kernels p) nk s;
      match o with
      | None => ngo rn nk ss' p
      | Some (kernel, closures) =>
          match bm_get (wl kernel) (l_raws p) with
          | None => ngo rn nk ss' p
          | Some main_kernel => do '(p', _) <- rn p main_kernel kernel closures; ngo rn nk ss' p'
          end
      end
  end.

Lemma renew_S syms d p main inc cl : renew dbg closure c2 syms (S d) p main inc cl =
  do '(p1, o) <- update_state dbg p main inc cl;
  match o with
  | None => Val (p1, None)
  | Some nk => do p2 <- ngo (renew dbg closure c2 syms d) nk syms p1; Val (p2, Some nk)
  end.
Proof.
  assert (H : forall nk ss p, (fix go (ss : list T) (p : lalr T) {struct ss} : res (lalr T) :=
            match ss with
            | [] => Val p
            | s :: ss' =>
                do o <- goto_kernel closure c2 (l_kernels p) nk s;
                match o with
                | None => go ss' p
                | Some (kernel, closures) =>
                    match bm_get (without_look kernel) (l_raws p) with
                    | None => go ss' p
                    | Some main_kernel =>
                        do '(p', _) <- renew dbg closure c2 syms d p main_kernel kernel closures;
                        go ss' p'
                    end
                end
            end) ss p = ngo (renew dbg closure c2 syms d) nk ss p).
  { intros nk. induction ss as [|X ss IH]; intros q; cbn [ngo]; [reflexivity|].
    destruct (goto_kernel closure c2 (l_kernels q) nk X) as [[[kernel c]|]| |]; cbn [bind]; auto.
    destruct (bm_get (wl kernel) (l_raws q)) as [main'|]; auto.
    destruct (renew dbg closure c2 syms d q main' kernel c) as [[p' o']| |]; cbn [bind]; auto. }
  cbn [renew]. destruct (update_state dbg p main inc cl) as [[p1 [nk|]]| |]; cbn [bind]; auto. now rewrite H.
Qed.

(** what [goto_kernel] offers while a kernel is being handed on *)
Lemma goto_pre c p nk X kernel closures main : linv p -> (forall b, In b nk -> V b) ->
  goto_kernel closure c (l_kernels p) nk X = Val (Some (kernel, closures)) -> rget (wl kernel) p = Some main ->
  upd_pre p main kernel closures /\ wl main = wl (sym_filter nk X).
Proof.
  intros Ip HV Eo Em. apply (goto_kernel_spec g lk closure Hc) in Eo; [|apply (li_nil _ _ _ _ _ Ip)].
  destruct Eo as [[E _]|(c' & E & Hno & Hne & Hsc & Hcc)]; [discriminate|]. injection E as -> ->.
  pose proof (wl_ne _ Hne) as Nw. pose proof (ro_wl _ _ _ _ _ (li_raw _ _ _ _ _ Ip _ _ Em Nw)) as Ew. split; auto.
  split; auto. split; [intros ->; apply Nw; now rewrite <- Ew|]. split; [congruence|]. split; auto. split; auto.
  exact (sym_filter_V V Va nk X HV).
Qed.

Lemma uc_val syms fuel p main inc cl x : upd_pre p main inc cl -> update_closures dbg closure c1 syms fuel p main inc cl = Val x ->
  uc_post g lk V R p main x.
Proof.
  intros Hp. destruct (uc_rg_ok dbg start eof rules g W Hg lk closure Hc Hl V Vv Vy Va Vm R Rc Rm c1 syms fuel) as [H _].
  apply (H 0 (Nat.le_0_l _)). exact Hp.
Qed.

(** the kernel that is being handed on is not touched meanwhile *)
Lemma uc_after syms fuel p id nk X main kernel closures p' nk' : rg_pre p id nk -> upd_pre p main kernel closures -> wl main = wl (sym_filter nk X) ->
  update_closures dbg closure c1 syms fuel p main kernel closures = Val (p', Some nk') -> rg_pre p' id nk /\ exists u, kget nk' p' = Some u /\ u <> id.
Proof.
  intros (Ip & Nk & Hr & Hk) Hpre Ewm Eu. pose proof Hpre as (_ & Nm & _).
  apply uc_val in Eu as [[A _]|(nk1 & A & B & C & D & E & F)]; auto; [discriminate|]. cbn [fst snd] in *. injection A as <-.
  assert (G : forall m, ge m (wl nk) -> forall r, r <> [] -> ~ ge (S m) r -> rget r p' = rget r p).
  { intros m Hm r Nr Hge. pose proof (ge_filter m nk X Hm) as Hm'. rewrite <- Ewm in Hm'. apply (F (S m)); auto.
    - intros ->. auto.
    - intros Hg'. apply Hge. now apply ge_mono. }
  destruct (min_point (wl nk) (wl_ne _ Nk)) as (m & Hm1 & Hm2).
  assert (Hr' : rget (wl nk) p' = Some nk) by (rewrite (G m Hm1 _ (wl_ne _ Nk) Hm2); exact Hr).
  destruct (lx_raw _ _ C _ _ _ (wl_ne _ Nk) Hr Hk) as (k' & E1 & E2). assert (k' = nk) by congruence. subst k'.
  split; [split; auto|]. destruct (li_raw _ _ _ _ _ B _ _ D (wl_ne _ Nm)) as [_ _ _ (u & row & Hu & _)]. exists u. split; auto. intros ->.
  assert (wl main = wl nk) as Eq by (apply (raw_inj g lk V R p' (wl main) (wl nk) nk' nk id B); auto using wl_ne).
  apply Hm2. rewrite <- Eq, Ewm. now apply ge_filter.
Qed.

(** ** the depth: every call moves the dot on *)
Lemma renew_ok syms : forall fuel d m p main inc cl x, upd_pre p main inc cl -> ge m (wl main) -> L < m + d ->
  update_closures dbg closure c1 syms fuel p main inc cl = Val x -> renew dbg closure c2 syms d p main inc cl = Val x.
Proof.
  intros fuel. induction fuel as [fuel IH] using lt_wf_ind. intros d m p main inc cl x Hpre Hm Hd E.
  pose proof Hpre as (Ip & Nm & Hr & _). pose proof (wl_ne _ Nm) as Nw.
  assert (HVm : forall b, In b main -> V b) by (intros b Hb; now apply (ro_V _ _ _ _ _ (li_raw _ _ _ _ _ Ip _ _ Hr Nw))).
  pose proof (ge_short m main Nm HVm Hm) as Hml. destruct d as [|d]; [lia|]. destruct fuel as [|fuel]; [discriminate|].
  rewrite update_closures_S in E. rewrite renew_S.
  destruct (update_state_cases dbg start eof rules g W Hg lk V Vv Vy Vm R Rc Rm p main inc cl Hpre) as [Eu|(nk & p1 & Eu & I1 & X1 & W1 & R1 & M1)];
    rewrite Eu in E |- *; cbn [bind] in E |- *; [exact E|].
  assert (rget (wl nk) p1 = Some nk) as Hr1 by (rewrite R1, W1; apply bm_get_insert_eq).
  assert (nk <> []) as Nn by (intros ->; apply Nw; now rewrite <- W1).
  destruct (li_raw _ _ _ _ _ I1 _ _ Hr1 (wl_ne _ Nn)) as [_ _ HV1 (id & row & Hk1 & _)]. rewrite Hk1 in E. cbn [expect bind] in E.
  assert (rg_pre p1 id nk) as Hpre1 by (split; auto). apply bind_val in E as ([p2 nk2] & E & [= <-]).
  destruct fuel as [|fuel]; [discriminate|]. rewrite regen_S in E. rewrite <- W1 in Hm.
  assert (forall b, In b nk -> V b) as HV by (intros b Hb; now apply HV1).
  assert (G : forall ss p1 p2 nk2, rg_pre p1 id nk ->
    rgo closure (update_closures dbg closure c1 syms fuel) (regen dbg closure c1 syms fuel) c1 id nk ss p1 = Val (p2, nk2) ->
    ngo (renew dbg closure c2 syms d) nk ss p1 = Val p2 /\ nk2 = nk).
  { clear p1 p2 nk2 Eu I1 X1 R1 M1 Hr1 Hk1 Hpre1 E HV1. induction ss as [|X ss IHs]; intros p1 p2 nk2 Hpre1 E; cbn [rgo] in E; cbn [ngo]; [injection E as <- <-; auto|].
    rewrite (goto_enough closure N HN c1 c2) in E by auto. destruct (goto_kernel closure c2 (l_kernels p1) nk X) as [[[kernel cl']|]| |] eqn:Eo; try discriminate E; cbn [bind] in E |- *; [|now apply IHs].
    destruct (bm_get (wl kernel) (l_raws p1)) as [main'|] eqn:Em; [|now apply IHs].
    destruct (goto_pre _ _ _ _ _ _ _ (proj1 Hpre1) HV Eo Em) as (Hpre' & Ew'). apply bind_val in E as ([p' o'] & Eu & E).
    rewrite (IH fuel) with (m := S m) (x := (p', o')); [|lia|exact Hpre'|rewrite Ew'; now apply ge_filter|lia|exact Eu]. cbn [bind].
    destruct o' as [nk'|].
    - destruct (uc_after _ _ _ _ _ _ _ _ _ _ _ Hpre1 Hpre' Ew' Eu) as (Hp' & u & Hu & Nu). rewrite Hu in E. cbn [expect bind] in E.
      apply Nat.eqb_neq in Nu. rewrite Nu in E. cbn [andb] in E. now apply IHs.
    - apply uc_val in Eu as [[_ A]|(nk1 & A & _)]; [|discriminate|exact Hpre']. cbn [fst] in A. subst p'. now apply IHs. }
  destruct (G _ _ _ _ Hpre1 E) as (G1 & ->). now rewrite G1.
Qed.

(** ** one turn *)
Lemma syms_cons syms idx row X ss p : lalr_syms dbg closure c1 syms idx row (X :: ss) p =
  do '(p1, b) <- lalr_syms dbg closure c1 syms idx row [X] p; if b then Val (p1, true) else lalr_syms dbg closure c1 syms idx row ss p1.
Proof.
  cbn [lalr_syms]. destruct (goto_kernel closure c1 (l_kernels p) row X) as [[[kernel c]|]| |]; cbn [bind]; auto.
  destruct (bm_get (wl kernel) (l_raws p)) as [main|].
  - destruct (update_closures dbg closure c1 syms c1 p main kernel c) as [[p' [nk|]]| |]; cbn [bind]; auto.
    destruct (expect P_index (bm_get nk (l_kernels p'))); cbn [bind]; auto. destruct (Nat.eqb _ _ && negb _); auto.
  - destruct (dassert dbg (negb (bm_mem kernel (l_kernels p)))); cbn [bind]; auto.
Qed.

Lemma syms_ok syms idx row : (forall b, In b row -> V b) -> forall ss p row0 p' again, linv p -> nth_error (l_states p) idx = Some row0 -> wl row = wl row0 ->
  lalr_syms dbg closure c1 syms idx row ss p = Val (p', again) -> linv p' /\ lext p p' /\ mu p' <= mu p /\ (again = true -> mu p' < mu p).
Proof.
  intros HV ss p row0 p' again Ip Hrow Ew E.
  destruct (lalr_syms_ok dbg start eof rules g W Hg lk closure Hc Hl V Vv Vy Va Vm R Rc Rm c1 syms idx row HV 0 (Nat.le_0_l _) ss p row0 Ip Hrow Ew) as [H _].
  apply H in E as (A & B & C & D & _). auto.
Qed.

Lemma within_syms_ok syms idx row d : L <= d -> (forall b, In b row -> V b) -> forall ss p row0 p' again, linv p -> nth_error (l_states p) idx = Some row0 -> wl row = wl row0 ->
  lalr_syms dbg closure c1 syms idx row ss p = Val (p', again) -> within_syms dbg closure c2 d syms idx row ss p = Val (p', again).
Proof.
  intros Hd HV. induction ss as [|X ss IH]; intros p row0 p' again Ip Hrow Ew E; [exact E|].
  assert (Next : forall p1, lalr_syms dbg closure c1 syms idx row [X] p = Val (p1, false) -> lalr_syms dbg closure c1 syms idx row ss p1 = Val (p', again) ->
    within_syms dbg closure c2 d syms idx row ss p1 = Val (p', again)).
  { intros p1 E1 E2. destruct (syms_ok _ _ _ HV _ _ _ _ _ Ip Hrow Ew E1) as (I1 & X1 & _).
    destruct (lx_row _ _ X1 _ _ Hrow) as (row1 & Hrow1 & Ew1). apply (IH p1 row1); auto. congruence. }
  rewrite syms_cons in E. apply bind_val in E as ([p1 b] & E1 & E2). pose proof E1 as E1'. cbn [lalr_syms] in E1. cbn [within_syms].
  rewrite (goto_enough closure N HN c1 c2) in E1 by auto. destruct (goto_kernel closure c2 (l_kernels p) row X) as [[[kernel cl']|]| |] eqn:Eo; try discriminate E1; cbn [bind] in E1 |- *.
  - destruct (bm_get (wl kernel) (l_raws p)) as [main|] eqn:Em.
    + destruct (goto_pre _ _ _ _ _ _ _ Ip HV Eo Em) as (Hpre & Ewm). apply bind_val in E1 as ([p2 o'] & Eu & E1).
      rewrite (renew_ok _ c1 d 1 _ _ _ _ (p2, o') Hpre); [|rewrite Ewm; apply ge_filter; intros ? ?; lia|lia|exact Eu]. cbn [bind].
      destruct o' as [nk|].
      * apply bind_val in E1 as (j & Ej & E1). rewrite Ej. cbn [bind].
        destruct (Nat.eqb j idx && negb (eqb nk row)); injection E1 as <- <-; [exact E2|]. now apply Next.
      * injection E1 as <- <-. now apply Next.
    + apply bind_val in E1 as (u & Eu & E1). rewrite Eu. cbn [bind]. injection E1 as <- <-. now apply Next.
  - injection E1 as <- <-. now apply Next.
Qed.

(** ** the turns *)
Lemma rows_mu fuel : forall idx p p', linv p -> idx <= length (l_states p) -> lalr_rows dbg closure c1 (g_symbols g) fuel idx p = Val p' ->
  linv p' /\ mu p' <= mu p /\ idx <= length (l_states p') /\ length (l_states p') - idx < fuel /\
  forall d turns, L <= d -> mu p - mu p' + (length (l_states p') - idx) < turns -> within_rows dbg closure c2 d (g_symbols g) turns idx p = Val p'.
Proof.
  induction fuel as [|fuel IH]; intros idx p p' Ip Li E; [discriminate|]. cbn [lalr_rows] in E. destruct (nth_error (l_states p) idx) as [row|] eqn:Hrow.
  - apply bind_val in E as ([p1 again] & E1 & E2). assert (idx < length (l_states p)) as Hlt by (apply nth_error_Some; congruence).
    assert (forall b, In b row -> V b) as HV by (intros b Hb; eapply (li_V _ _ _ _ _ Ip); eauto).
    destruct (syms_ok _ _ _ HV _ _ _ _ _ Ip Hrow eq_refl E1) as (I1 & X1 & M1 & M2). destruct (lx_row _ _ X1 _ _ Hrow) as (row1 & Hrow1 & _).
    assert (idx < length (l_states p1)) as Hlt1 by (apply nth_error_Some; congruence).
    destruct (IH (if again then idx else S idx) p1 p' I1) as (A & B & C & D & G); [destruct again; lia|exact E2|].
    split; [exact A|]. split; [lia|]. split; [destruct again; lia|]. split; [destruct again; lia|]. intros d [|turns] Hd Ht; [lia|]. cbn [within_rows]. rewrite Hrow.
    rewrite (within_syms_ok _ _ _ _ Hd HV _ _ _ _ _ Ip Hrow eq_refl E1). cbn [bind]. apply G; auto.
    destruct again; [specialize (M2 eq_refl)|]; lia.
  - injection E as <-. apply nth_error_None in Hrow as Hn. split; auto. split; auto. split; auto. split; [lia|]. intros d [|turns] Hd Ht; [lia|]. cbn [within_rows]. now rewrite Hrow.
Qed.

(** ** the measure *)
Variable U : list (T * nat * nat).
Hypothesis HU : forall A i rhs p, prod_at rules A i rhs -> p <= length rhs -> In (A, i, p) U.

Definition place (e : position T * T) : T * nat * nat * T := (p_rule (fst e), snd (p_seq (fst e)), p_point (fst e), snd e).

Lemma pairs_places k : (forall b, In b k -> V b) -> length (pairs k) <= length U * length (g_symbols g).
Proof.
  intros HV. assert (Hin : forall b x, In (b, x) (pairs k) -> prod_at rules (p_rule b) (snd (p_seq b)) (fst (p_seq b)) /\ p_point b <= length (fst (p_seq b)) /\ p_look b = [] /\ In x (g_symbols g)).
  { intros b x H. apply pairs_in in H as (q & Hq & <- & Hx). apply HV, Vv in Hq as ([H1 H2] & _ & H3). rewrite Er in H1. cbn. auto. }
  assert (Hinj : forall e e', In e (pairs k) -> In e' (pairs k) -> place e = place e' -> e = e').
  { intros [[A [rhs i] q l] x] [[A' [rhs' i'] q' l'] x'] H H' E. apply Hin in H as (P1 & _ & P2 & _). apply Hin in H' as (P1' & _ & P2' & _).
    unfold place in E. cbn in *. injection E as -> -> -> ->. pose proof (prod_at_fun' _ _ _ _ _ P1 P1') as ->. congruence. }
  rewrite <- prod_length, <- (map_length place). apply NoDup_incl_length.
  - assert (NoDup (pairs k)) as Nd by (apply sorted_NoDup, bs_of_list_sorted). revert Nd Hinj. clear. generalize (pairs k). intros l. induction l as [|e l IH]; intros Nd Hinj; cbn [map]; constructor.
    + intros (e' & Ee & He)%in_map_iff. inversion Nd as [|? ? Ni _]; subst. apply Ni. rewrite (Hinj e e'); auto; [now left|now right].
    + apply IH; [now inversion Nd|]. intros; apply Hinj; auto; now right.
  - intros e He. apply in_map_iff in He as ([b x] & <- & He). apply Hin in He as (P1 & P2 & _ & P3). unfold place. cbn [fst snd]. apply in_prod; eauto.
Qed.

Lemma mu_did p : linv p -> KB g * (2 * PB g + 2) <= mu p + length (l_raws p) * (2 * (length U * length (g_symbols g)) + 2).
Proof.
  intros Ip. pose proof (linv_bound dbg start eof rules g W Hg lk V Vv R p Ip) as LB.
  assert (HV : forall r k, In (r, k) (l_raws p) -> forall b, In b k -> V b).
  { intros r k Hin. assert (rget r p = Some k) as Hr by (apply bm_in_get; auto; apply (li_rs _ _ _ _ _ Ip)).
    destruct r as [|b0 r].
    - destruct (li_rnil _ _ _ _ _ Ip) as (s0 & E0 & H0). assert (k = s0) as -> by congruence. exact H0.
    - intros b Hb. now apply (ro_V _ _ _ _ _ (li_raw _ _ _ _ _ Ip (b0 :: r) k Hr ltac:(discriminate))). }
  assert (Hs : forall l : bmap (state T) (state T), (forall r k, In (r, k) l -> forall b, In b k -> V b) ->
    length l * (2 * PB g + 2) <= msum (wt g) l + length l * (2 * (length U * length (g_symbols g)) + 2)).
  { induction l as [|[r k] l IH]; intros H; [cbn; lia|]. unfold msum in *. cbn [map list_sum fold_right snd length].
    specialize (IH (fun r0 k0 Hi => H r0 k0 (or_intror Hi))). pose proof (pairs_places k (H r k (or_introl eq_refl))) as Pk.
    unfold wt at 1. unfold list_sum in IH. destruct (eqb (merged k) k); lia. }
  specialize (Hs _ HV). unfold Lalr.mu. nia.
Qed.
End Depth.

Section Work.
Context {T : Type} {OT : Ord T}.
Variables (dbg : bool) (start eof : T) (rules : rulemap T) (g : grammar T).
Hypothesis W : wf_rules rules.
Hypothesis Hg : grammar_new dbg start rules eof = Val g.

Lemma lalr_work t t' : tabler_makes dbg g t -> makes LALR dbg g t' -> forall L U,
  (forall A i rhs, prod_at rules A i rhs -> length rhs <= L) ->
  (forall A i rhs p, prod_at rules A i rhs -> p <= length rhs -> In (A, i, p) U) ->
  forall rnds depth turns, 2 * length rules < rnds -> L <= depth -> length (t_states t') * (2 * (length U * length (g_symbols g)) + 3) < turns ->
  lalr_within dbg rnds depth turns t = Val t'.
Proof.
  intros Ht Hm L U HL HU rnds depth turns L2 Hd Hf. pose proof (tmakes_facts _ _ _ _ _ W Hg _ Ht) as F. pose proof (tf_grammar _ _ _ _ _ _ F) as Eg.
  destruct (with_table_total _ _ _ _ _ W Hg LALR t Ht) as (n0 & t2 & Hn & Hm2). assert (t2 = t') as -> by (eapply makes_unique; eauto).
  set (c1 := max n0 (S (2 * length rules))). specialize (Hn c1 (Nat.le_max_l _ _)). cbn [with_table] in Hn.
  destruct (lalr_with_table dbg c1 t) as [[t2 p]| |] eqn:E; cbn [bind] in Hn; try discriminate. injection Hn as ->.
  assert (2 * length rules < c1) as L1 by lia. pose proof (closure_rounds dbg start eof rules g W Hg LALR t Ht) as HN. unfold Work.rounds in HN.
  unfold lalr_with_table in E. unfold lalr_within. unfold closure_fn in HN. rewrite Eg in *. unfold lalr_closures in E.
  assert (sorted [g_basis g]) as Hs by (split; [intros ? []|exact I]). destruct (HN _ Hs) as (s0 & H0). pose proof (H0 _ L1) as E0. rewrite E0 in E. rewrite (H0 _ L2). cbn [bind] in *.
  apply bind_val in E as (p' & E1 & E). apply bind_val in E as (acts & E2 & E). injection E as <- ->.
  pose proof (clr_closure_ok g (t_first t)) as Hc. apply (prop_closure_spec g (clr_lk (t_first t))) in E0 as (S0 & K0 & _); auto.
  pose proof (Qtrue start eof rules t) as HQ. pose proof (clr_lk_ok _ _ _ _ _ W Hg _ F) as Hl.
  pose proof (Vq_v g (fun _ _ => True)) as Vv. pose proof (Vq_y _ _ _ _ _ W Hg _ F _ HQ) as Vy. pose proof (Vq_a g (fun _ _ => True)) as Va.
  pose proof (Vq_m g (fun _ _ => True)) as Vm. pose proof (Vq_b _ _ _ _ _ W Hg _ _ HQ) as Vb.
  pose proof (rclosed_c g t (fun _ _ => True)) as Rc. pose proof (rclosed_m g t (fun _ _ => True)) as Rm.
  pose proof (linv_init g (clr_lk (t_first t)) _ Vy Vb _ Rc s0 S0 K0) as I0.
  assert (mu g (mkLalr [([], 0)] [s0] [([], s0)]) < KB g * (2 * PB g + 2)) as M0.
  { unfold mu. cbn [l_raws length]. unfold msum. cbn [map list_sum fold_right snd]. pose proof (wt_le g s0).
    pose proof (linv_bound dbg start eof rules g W Hg _ _ Vv _ _ I0) as LB. cbn [l_raws length] in LB. nia. }
  destruct (rows_mu dbg start eof rules g W Hg _ _ Hc Hl _ Vv Vy Va Vm _ Rc Rm _ HN L HL c1 rnds L1 L2 _ _ _ _ I0 (Nat.le_0_l _) E1) as (I1 & B & _ & _ & G).
  cbn [t_states] in Hf. assert (mu g (mkLalr [([], 0)] [s0] [([], s0)]) - mu g p + (length (l_states p) - 0) < turns) as Lt.
  2: { pose proof (G depth turns Hd Lt) as Gw. match goal with |- bind ?w _ = _ => replace w with (Val p) by (symmetry; exact Gw) end. cbn [bind]. rewrite E2. reflexivity. }
  pose proof (mu_did dbg start eof rules g W Hg _ _ Vv _ _ _ _ L1 L2 U HU _ I1) as M1. rewrite <- (li_len _ _ _ _ _ I1) in M1.
  rewrite Nat.sub_0_r. rewrite !Nat.mul_add_distr_l in Hf, M1. lia.
Qed.

(** a turn visits one state *)
Lemma lalr_least t t' fuel : tabler_makes dbg g t -> with_table LALR dbg fuel t = Val t' -> length (t_states t') < fuel.
Proof.
  intros Ht E. pose proof (tmakes_facts _ _ _ _ _ W Hg _ Ht) as F. pose proof (tf_grammar _ _ _ _ _ _ F) as Eg.
  cbn [with_table] in E. destruct (lalr_with_table dbg fuel t) as [[t2 p]| |] eqn:E'; cbn [bind] in E; try discriminate. injection E as ->. rename E' into E.
  unfold lalr_with_table in E. rewrite Eg in E. unfold lalr_closures in E.
  apply bind_val in E as (p' & E1 & E). apply bind_val in E1 as (s0 & E0 & E1). apply bind_val in E as (acts & E2 & E). injection E as <- ->. cbn [t_states].
  assert (G : forall f idx p p', lalr_rows dbg (clr_closure g (t_first t)) fuel (g_symbols g) f idx p = Val p' -> length (l_states p') - idx < f).
  { clear. induction f as [|f IH]; intros idx p p' E; [discriminate|]. cbn [lalr_rows] in E. destruct (nth_error (l_states p) idx) as [row|] eqn:Er.
    - apply bind_val in E as ([p1 again] & _ & E). apply IH in E. destruct again; lia.
    - injection E as <-. apply nth_error_None in Er. lia. }
  apply G in E1. lia.
Qed.
End Work.
