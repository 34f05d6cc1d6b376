(** A predicate on whole states that Lalr's construction keeps: closures have it if their kernels do, moving on keeps it, and so does
    merging states with the same items (towards C137). *)
From Coq Require Import List Bool Arith Lia.
From Verif Require Import BTree Model Base Spec SpecP GrammarP FirstFollow Closure Canon Merged Lalr.
Import ListNotations.

Section Kern.
Context {T : Type} {OT : Ord T}.
Variables (dbg : bool) (start eof : T) (rules : rulemap T) (g : grammar T).
Hypothesis W : wf_rules rules.
Hypothesis Hg : grammar_new dbg start rules eof = Val g.
Variable lk : position T -> bset T.
Variable closure : state T -> res (state T).
Hypothesis Hc : closure_ok g lk closure.
Hypothesis Hl : lk_ok g lk.
Variable V : position T -> Prop.
Hypothesis Vv : forall p, V p -> vpos g p.
Hypothesis Vy : forall p q, V p -> yields g lk p q -> V q.
Hypothesis Va : forall p X, V p -> ptop p = Some X -> V (adv p).
Hypothesis Vm : forall p, sorted (p_look p) -> (exists q, V q /\ no_look q = no_look p /\ incl (p_look q) (p_look p)) ->
  (forall t, In t (p_look p) -> exists q, V q /\ no_look q = no_look p /\ In t (p_look q)) -> V p.
Hypothesis Vb : V (g_basis g).
Variable R : state T -> Prop.
Hypothesis Rc : forall seed c, (forall b, In b seed -> V b) -> sorted c -> (forall q, In q c <-> clo g lk seed q) -> R c.
Hypothesis Rm : forall c c' : state T, R c -> R c' -> (forall b, In b c -> V b) -> (forall b, In b c' -> V b) ->
  R (merged (bs_of_list (c ++ c'))).

Variable K : state T -> Prop.
Hypothesis Kc : forall k c, K k -> (forall b, In b k -> V b) -> (forall q, In q c <-> clo g lk k q) -> K c.
Hypothesis Kg : forall k X, K k -> (forall b, In b k -> V b) -> K (sym_filter k X).
Hypothesis Km : forall k k' : state T, K k -> K k' -> without_look k = without_look k' -> K (merged (bs_of_list (k ++ k'))).
Hypothesis Kb : K [g_basis g].

Implicit Types (p : lalr T) (r k row c : state T).
Notation wl := without_look.
Notation rget r p := (bm_get (K:=state T) r (l_raws p)).
Notation kget k p := (bm_get (K:=state T) k (l_kernels p)).
Notation sts p n := (nth_error (l_states p) n).
Notation linv := (linv g lk V R).
Notation upd_pre := (upd_pre g lk V R).
Notation rg_pre := (rg_pre g lk V R).

Record kinv p : Prop := {
  ki_raw : forall r k, r <> [] -> rget r p = Some k -> K k;
  ki_sts : forall i c, sts p i = Some c -> K c
}.

Lemma goto_pre cf p k X kernel cl : linv p -> (forall b, In b k -> V b) -> K k ->
  goto_kernel closure cf (l_kernels p) k X = Val (Some (kernel, cl)) ->
  kernel = sym_filter k X /\ kernel <> [] /\ K kernel /\ (forall b, In b kernel -> V b) /\ (forall q, In q cl <-> clo g lk kernel q) /\
  forall main, rget (wl kernel) p = Some main -> upd_pre p main kernel cl.
Proof.
  intros I HV HK E. apply (goto_kernel_spec g lk closure Hc) in E; [|apply (li_nil _ _ _ _ _ I)].
  destruct E as [[E _]|(c & E & Hno & Hne & Hsc & Hcc)]; [discriminate|]. injection E as -> ->.
  pose proof (sym_filter_V V Va _ X HV) as HV'. split; auto. split; auto. split; auto. split; auto. split; auto.
  intros main Em. pose proof (wl_ne _ Hne) as Nw. pose proof (ro_wl _ _ _ _ _ (li_raw _ _ _ _ _ I _ _ Em Nw)) as Ew.
  split; auto. split; [intros ->; apply Nw; now rewrite <- Ew|]. split; [congruence|]. split; auto.
Qed.

Lemma update_state_K p main inc cl p' o : upd_pre p main inc cl -> kinv p -> K inc -> update_state dbg p main inc cl = Val (p', o) -> kinv p'.
Proof.
  intros (I & Nm & Hr & Ew & HiV & Hsc & Hcl) [K1 K2] Ki E. pose proof (wl_ne _ Nm) as Nw.
  destruct (li_raw _ _ _ _ _ I _ _ Hr Nw) as [_ Sm HmV (n & row & Hk & Hn & Erow & Hrow & _)].
  unfold update_state in E. rewrite Hk in E. destruct (eqb (merged (bs_of_list (inc ++ main))) main); [injection E as <- _; now constructor|].
  rewrite Erow in E. cbn [expect bind] in E. apply bind_val in E as (u & _ & E). injection E as <- _. constructor; cbn [l_raws l_states].
  - intros r k Nr. rewrite bm_get_insert. destruct (eqb r _); [|apply K1; auto]. intros [= <-]. apply Km; eauto.
  - intros i c. rewrite set_nth_nth. destruct (Nat.eqb_spec n i) as [<-|]; [|apply K2]. rewrite Erow. intros [= <-].
    apply Km; [eapply K2; eauto|eapply Kc; eauto|].
    apply sorted_ext; auto using without_look_sorted. intros b. rewrite Hrow, <- Ew, <- (clo_bodies g lk), without_look_in.
    split; intros (q & Hq & Eq); exists q; split; auto; now apply Hcl.
Qed.

Definition ucK (uc : lalr T -> state T -> state T -> state T -> res (lalr T * option (state T))) : Prop :=
  forall p main inc cl p' o, upd_pre p main inc cl -> kinv p -> K inc -> uc p main inc cl = Val (p', o) -> kinv p'.
Definition rgK (rg : lalr T -> nat -> state T -> res (lalr T * state T)) : Prop :=
  forall p id nk p' nk', rg_pre p id nk -> kinv p -> rg p id nk = Val (p', nk') -> kinv p'.

Lemma rgo_K uc rg cf id nk ss : uc_ok g lk V R cf 0 uc -> ucK uc -> rgK rg -> forall p p' nk', rg_pre p id nk -> kinv p ->
  rgo closure uc rg cf id nk ss p = Val (p', nk') -> kinv p'.
Proof.
  intros Hu Ku Kr. induction ss as [|X ss IH]; intros p p' nk' Hpre Kp E; cbn [rgo] in E; [now injection E as <- _|].
  pose proof Hpre as (I & Nk & Hr & Hk). apply bind_val in E as (o & Eo & E). destruct o as [[kernel cl]|]; [|eauto].
  pose proof (li_raw _ _ _ _ _ I _ _ Hr (wl_ne _ Nk)) as Ro.
  assert (HV : forall b, In b nk -> V b) by (intros b Hb; now apply (ro_V _ _ _ _ _ Ro)).
  destruct (goto_pre _ _ _ _ _ _ I HV (ki_raw _ Kp _ _ (wl_ne _ Nk) Hr) Eo) as (Ek & Nke & HK & HVk & Hcl & Hup).
  destruct (bm_get (wl kernel) (l_raws p)) as [main|] eqn:Em; [|eauto]. specialize (Hup _ eq_refl).
  apply bind_val in E as ([p1 o1] & E1 & E). pose proof (Ku _ _ _ _ _ _ Hup Kp HK E1) as Kp1.
  assert (rg_pre p1 id nk) as Hpre1.
  { assert (forall u, match o1 with Some nk1 => kget nk1 p1 = Some u | None => True end ->
      rgo closure uc (fun p _ _ => Val (p, nk)) cf id nk [X] p = Val (p1, nk)) as E0.
    { intros u Hu1. cbn [rgo]. rewrite Eo. cbn [bind]. rewrite Em, E1. cbn [bind]. destruct o1 as [nk1|]; auto. rewrite Hu1. cbn [expect bind].
      match goal with |- context [if ?b then _ else _] => destruct b end; reflexivity. }
    assert (exists u, match o1 with Some nk1 => kget nk1 p1 = Some u | None => True end) as (u & Hu1).
    { destruct o1 as [nk1|]; [|now exists 0]. apply bind_val in E as (u & E & _). apply expect_val in E. eauto. }
    apply E0 in Hu1. destruct (rgo_ok dbg start eof rules g W Hg lk closure Hc Hl V Vv Va R uc (fun p _ _ => Val (p, nk)) cf id nk [X] 0 Hu p Hpre) as [H _].
    apply H in Hu1 as (_ & I1 & X1 & _ & Fr). cbn [fst] in *. destruct (min_point (wl nk) (wl_ne _ Nk)) as (m & Hm1 & Hm2).
    assert (Hr' : rget (wl nk) p1 = Some nk) by (rewrite (Fr m Hm1 _ (wl_ne _ Nk) Hm2); exact Hr).
    destruct (lx_raw _ _ X1 _ _ _ (wl_ne _ Nk) Hr Hk) as (k' & F1 & F2). assert (k' = nk) by congruence. subst k'. split; auto. }
  destruct o1 as [nk1|]; [|eauto]. apply bind_val in E as (u & Eu & E). apply expect_val in Eu.
  destruct (Nat.eqb u id && negb (eqb nk1 nk)) eqn:Eb; [|eauto]. apply andb_true_iff in Eb as [Eb _]. apply Nat.eqb_eq in Eb. subst u.
  refine (Kr _ _ _ _ _ _ Kp1 E). destruct (Hu _ _ _ _ Hup) as [H _]. apply H in E1 as [[A _]|(nk2 & A & B & C & D & _)]; [discriminate|].
  cbn [fst snd] in *. injection A as <-. destruct Hup as (_ & Nm & _). pose proof (ro_wl _ _ _ _ _ (li_raw _ _ _ _ _ B _ _ D (wl_ne _ Nm))) as Ew.
  split; auto. split; [intros ->; apply (wl_ne _ Nm); now rewrite <- Ew|]. split; [congruence|auto].
Qed.

Lemma uc_rg_K cf syms fuel : ucK (update_closures dbg closure cf syms fuel) /\ rgK (regen dbg closure cf syms fuel).
Proof.
  induction fuel as [|fuel [IHu IHr]]; [split; [intros p main inc cl p' o _ _ _ E|intros p id nk p' nk' _ _ E]; discriminate|].
  destruct (uc_rg_ok dbg start eof rules g W Hg lk closure Hc Hl V Vv Vy Va Vm R Rc Rm cf syms fuel) as [Huc _]. split.
  - intros p main inc cl p' o Hpre Kp Ki E. rewrite update_closures_S in E. pose proof Hpre as (Ip & Nm & Hr & _).
    destruct (update_state_cases dbg start eof rules g W Hg lk V Vv Vy Vm R Rc Rm p main inc cl Hpre) as [E1|(nk & p1 & E1 & I1 & X1 & W1 & R1 & M1)]; rewrite E1 in E; cbn [bind] in E.
    { now injection E as <- _. }
    apply bind_val in E as (id & Eid & E). apply expect_val in Eid. apply bind_val in E as ([p2 nk2] & E2 & [= <- _]).
    refine (IHr _ _ _ _ _ _ (update_state_K _ _ _ _ _ _ Hpre Kp Ki E1) E2). split; auto. split; [intros ->; apply (wl_ne _ Nm); now rewrite <- W1|].
    split; auto. rewrite R1, W1. apply bm_get_insert_eq.
  - intros p id nk p' nk' Hpre Kp E. rewrite regen_S in E. eapply rgo_K; eauto. apply Huc. lia.
Qed.

Lemma lalr_syms_K cf syms idx row : (forall b, In b row -> V b) -> K row -> forall ss p row0 p' again,
  linv p -> sts p idx = Some row0 -> wl row = wl row0 -> kinv p -> lalr_syms dbg closure cf syms idx row ss p = Val (p', again) -> kinv p'.
Proof.
  intros HV HK. induction ss as [|X ss IH]; intros p row0 p' again I Hrow Ew Kp E; [now injection E as <- _|].
  assert (Hone : forall p1 ag, lalr_syms dbg closure cf syms idx row [X] p = Val (p1, ag) -> linv p1 /\ exists row1, sts p1 idx = Some row1 /\ wl row = wl row1).
  { intros p1 ag E1. destruct (lalr_syms_ok dbg start eof rules g W Hg lk closure Hc Hl V Vv Vy Va Vm R Rc Rm cf syms idx row HV 0 ltac:(lia) [X] p row0 I Hrow Ew) as [H _].
    apply H in E1 as (A & B & _). split; auto. destruct (lx_row _ _ B _ _ Hrow) as (row1 & H1 & H2). exists row1. split; congruence. }
  cbn [lalr_syms] in E, Hone. apply bind_val in E as (o & Eo & E). rewrite Eo in Hone. cbn [bind] in Hone. destruct o as [[kernel cl]|]; [|eauto].
  destruct (goto_pre _ _ _ _ _ _ I HV HK Eo) as (Ek & Nke & HKk & HVk & Hcl & Hup).
  destruct (bm_get (wl kernel) (l_raws p)) as [main|] eqn:Em.
  - apply bind_val in E as ([p1 o1] & E1 & E). rewrite E1 in Hone. cbn [bind] in Hone.
    pose proof (proj1 (uc_rg_K cf syms cf) _ _ _ _ _ _ (Hup _ eq_refl) Kp HKk E1) as Kp1. destruct o1 as [nk|].
    + apply bind_val in E as (j & Ej & E). rewrite Ej in Hone. cbn [bind] in Hone.
      destruct (Nat.eqb j idx && negb (eqb nk row)); [now injection E as <- _|].
      destruct (Hone _ _ eq_refl) as (I1 & row1 & H1 & H2). eapply IH; eauto.
    + destruct (Hone _ _ eq_refl) as (I1 & row1 & H1 & H2). eapply IH; eauto.
  - apply bind_val in E as (u & Eu & E). rewrite Eu in Hone. cbn [bind] in Hone. destruct (Hone _ _ eq_refl) as (I1 & row1 & H1 & H2).
    refine (IH _ row1 _ _ I1 H1 H2 _ E). constructor; cbn [l_raws l_states].
    + intros r k Nr. rewrite bm_get_insert. destruct (eqb r _); [|apply (ki_raw _ Kp); auto]. now intros [= <-].
    + intros i c Hi. destruct (lt_dec i (length (l_states p))) as [Hlt|Hge].
      * rewrite nth_error_app1 in Hi by auto. eapply (ki_sts _ Kp); eauto.
      * rewrite nth_error_app2 in Hi by lia. destruct (i - length (l_states p)) as [|[|]]; cbn in Hi; try discriminate. injection Hi as <-. eapply Kc; eauto.
Qed.

Lemma lalr_rows_K cf fuel idx p p' : linv p -> kinv p -> lalr_rows dbg closure cf (g_symbols g) fuel idx p = Val p' -> kinv p'.
Proof.
  revert idx p. induction fuel as [|fuel IH]; intros idx p I Kp E; [discriminate|]. cbn [lalr_rows] in E.
  destruct (sts p idx) as [row|] eqn:Hrow; [|now injection E as <-]. apply bind_val in E as ([p1 again] & E1 & E).
  assert (HV : forall b, In b row -> V b) by (intros b Hb; eapply (li_V _ _ _ _ _ I); eauto).
  destruct (lalr_syms_ok dbg start eof rules g W Hg lk closure Hc Hl V Vv Vy Va Vm R Rc Rm cf (g_symbols g) idx row HV 0 ltac:(lia) (g_symbols g) p row I Hrow eq_refl) as [H _].
  destruct (H _ _ E1) as (I1 & _). exact (IH _ _ I1 (lalr_syms_K _ _ _ _ HV (ki_sts _ Kp _ _ Hrow) _ _ _ _ _ I Hrow eq_refl Kp E1) E).
Qed.

Lemma lalr_closures_K fuel p : lalr_closures dbg closure fuel g = Val p -> forall i c, sts p i = Some c -> K c.
Proof.
  unfold lalr_closures. intros E. apply bind_val in E as (s0 & E0 & E). apply (prop_closure_spec g lk) in E0 as (S0 & H0 & _); auto.
  apply lalr_rows_K in E; [apply (ki_sts _ E)|exact (linv_init g lk V Vy Vb R Rc s0 S0 H0)|].
  assert (K s0) as Ks. { eapply Kc; eauto. intros b [<-|[]]. exact Vb. }
  constructor; cbn [l_raws l_states].
  - intros r k Nr Hr. cbn [bm_get] in Hr. destruct (eqb_spec r []); congruence.
  - intros [|[|i]] c Hi; cbn in Hi; try discriminate. now injection Hi as <-.
Qed.
End Kern.
