(** More fuel never changes an answer: whatever a fuelled function of the model
    answers (a value or a panic) it answers with any larger fuel.  Hence the
    value "the code returns" is unique. *)
From Coq Require Import List Bool Arith Lia.
From Verif Require Import BTree Model Base.
Import ListNotations.

Definition rle {A} (r r' : res A) : Prop := r <> Fuel -> r' = r.

Lemma rle_refl {A} (r : res A) : rle r r.
Proof. intros _. reflexivity. Qed.
Lemma rle_fuel {A} (r : res A) : rle Fuel r.
Proof. intros H. congruence. Qed.
Lemma rle_bind {A B} (r r' : res A) (f f' : A -> res B) : rle r r' -> (forall a, rle (f a) (f' a)) -> rle (bind r f) (bind r' f').
Proof.
  intros H1 H2. destruct r as [a|p|].
  - rewrite H1 by discriminate. simpl. apply H2.
  - rewrite H1 by discriminate. apply rle_refl.
  - apply rle_fuel.
Qed.
Lemma rle_foldM {A B} (f f' : B -> A -> res B) l : (forall b x, rle (f b x) (f' b x)) -> forall b, rle (foldM f l b) (foldM f' l b).
Proof. intros H. induction l as [|x l IH]; intros b; simpl; [apply rle_refl|]. apply rle_bind; auto. Qed.
Lemma rle_val {A} (r r' : res A) a : rle r r' -> r = Val a -> r' = Val a.
Proof. intros H ->. apply H. discriminate. Qed.
Lemma rle_panic {A} (r r' : res A) p : rle r r' -> r = Panic p -> r' = Panic p.
Proof. intros H ->. apply H. discriminate. Qed.
Lemma rle_fun {A} (f : nat -> res A) n m a b : (forall n m, n <= m -> rle (f n) (f m)) -> f n = Val a -> f m = Val b -> a = b.
Proof.
  intros H E1 E2. destruct (Nat.le_gt_cases n m) as [L|L].
  - pose proof (rle_val _ _ _ (H _ _ L) E1). congruence.
  - pose proof (rle_val _ _ _ (H m n ltac:(lia)) E2). congruence.
Qed.

Lemma transitive_rle {A} `{Ord A} (f : A -> res A) n : forall m seed, n <= m -> rle (transitive n seed f) (transitive m seed f).
Proof.
  induction n as [|n IH]; intros [|m] seed L; try apply rle_fuel; [lia|]. cbn [transitive].
  apply rle_bind; [apply rle_refl|]. intros a. destruct (eqb a seed); [apply rle_refl|]. apply IH. lia.
Qed.

Section Mono.
Context {T : Type} {OT : Ord T}.

Lemma tabler_rle dbg (g : grammar T) n m : n <= m -> rle (tabler_new dbg n g) (tabler_new dbg m g).
Proof.
  intros L. unfold tabler_new, proc_first, proc_follow.
  apply rle_bind; [apply rle_refl|]. intros f0. apply rle_bind.
  - apply rle_bind; [now apply transitive_rle|]. intros; apply rle_refl.
  - intros f. apply rle_bind; [apply rle_refl|]. intros w0. apply rle_bind; [|intros; apply rle_refl].
    apply rle_bind; [now apply transitive_rle|]. intros; apply rle_refl.
Qed.

Section Closure.
Variable closure : state T -> res (state T).

Lemma prop_closure_rle n m seed : n <= m -> rle (prop_closure closure n seed) (prop_closure closure m seed).
Proof. apply transitive_rle. Qed.

Lemma goto_rle n m ks row s : n <= m -> rle (goto_kernel closure n ks row s) (goto_kernel closure m ks row s).
Proof.
  intros L. unfold goto_kernel. destruct (bm_mem _ _); [apply rle_refl|]. apply rle_bind; [now apply prop_closure_rle|]. intros; apply rle_refl.
Qed.

Lemma proc_syms_rle dbg n m syms row kss : n <= m -> rle (proc_syms dbg closure n syms row kss) (proc_syms dbg closure m syms row kss).
Proof.
  intros L. unfold proc_syms. apply rle_foldM. intros [ks sts] x. apply rle_bind; [now apply goto_rle|]. intros; apply rle_refl.
Qed.

Lemma proc_rows_rle dbg syms c c' : c <= c' -> forall n m idx kss, n <= m ->
  rle (proc_rows dbg closure c syms n idx kss) (proc_rows dbg closure c' syms m idx kss).
Proof.
  intros Lc. induction n as [|n IH]; intros [|m] idx kss L; try apply rle_fuel; [lia|]. cbn [proc_rows].
  destruct (nth_error (snd kss) idx); [|apply rle_refl]. apply rle_bind; [now apply proc_syms_rle|]. intros kss'. apply IH. lia.
Qed.

Lemma proc_closures_rle dbg n m (g : grammar T) : n <= m -> rle (proc_closures dbg closure n g) (proc_closures dbg closure m g).
Proof. intros L. unfold proc_closures. apply rle_bind; [now apply prop_closure_rle|]. intros. now apply proc_rows_rle. Qed.

Lemma update_rle dbg syms c c' : c <= c' -> forall n,
  (forall m p main inc cl, n <= m -> rle (update_closures dbg closure c syms n p main inc cl) (update_closures dbg closure c' syms m p main inc cl)) /\
  (forall m p id nk, n <= m -> rle (regen dbg closure c syms n p id nk) (regen dbg closure c' syms m p id nk)).
Proof.
  intros Lc. induction n as [|n [IH1 IH2]].
  - split; intros; apply rle_fuel.
  - split.
    + intros [|m] p main inc cl L; [lia|]. cbn [update_closures]. apply rle_bind; [apply rle_refl|]. intros [p1 [nk|]]; [|apply rle_refl].
      apply rle_bind; [apply rle_refl|]. intros id. apply rle_bind; [apply IH2; lia|]. intros [p2 nk2]. apply rle_refl.
    + intros [|m] p id nk L; [lia|]. cbn [regen]. revert p.
      match goal with |- forall p, rle (?G syms p) (?G' syms p) => set (go := G); set (go' := G') end.
      enough (forall ss p, rle (go ss p) (go' ss p)) by auto.
      induction ss as [|s ss IHs]; intros p; [apply rle_refl|]. subst go go'. cbn iota beta fix.
      apply rle_bind; [now apply goto_rle|]. intros [[kernel cl]|]; [|apply IHs].
      destruct (bm_get (without_look kernel) (l_raws p)) as [mk|]; [|apply IHs].
      apply rle_bind; [apply IH1; lia|]. intros [p' [nk'|]]; [|apply IHs].
      apply rle_bind; [apply rle_refl|]. intros u. destruct (_ && _); [apply IH2; lia|apply IHs].
Qed.

Lemma lalr_syms_rle dbg syms n m idx row : n <= m -> forall ss p,
  rle (lalr_syms dbg closure n syms idx row ss p) (lalr_syms dbg closure m syms idx row ss p).
Proof.
  intros L. induction ss as [|s ss IH]; intros p; [apply rle_refl|]. cbn [lalr_syms].
  apply rle_bind; [now apply goto_rle|]. intros [[kernel cl]|]; [|apply IH].
  destruct (bm_get (without_look kernel) (l_raws p)) as [mk|].
  - apply rle_bind; [now apply update_rle|]. intros [p' [nk'|]]; [|apply IH].
    apply rle_bind; [apply rle_refl|]. intros u. destruct (_ && _); [apply rle_refl|apply IH].
  - apply rle_bind; [apply rle_refl|]. intros _. apply IH.
Qed.

Lemma lalr_rows_rle dbg syms c c' : c <= c' -> forall n m idx p, n <= m ->
  rle (lalr_rows dbg closure c syms n idx p) (lalr_rows dbg closure c' syms m idx p).
Proof.
  intros Lc. induction n as [|n IH]; intros [|m] idx p L; try apply rle_fuel; [lia|]. cbn [lalr_rows].
  destruct (nth_error (l_states p) idx); [|apply rle_refl]. apply rle_bind; [now apply lalr_syms_rle|]. intros [p' again]. apply IH. lia.
Qed.

Lemma lalr_closures_rle dbg n m (g : grammar T) : n <= m -> rle (lalr_closures dbg closure n g) (lalr_closures dbg closure m g).
Proof. intros L. unfold lalr_closures. apply rle_bind; [now apply prop_closure_rle|]. intros. now apply lalr_rows_rle. Qed.
End Closure.

Lemma slr_with_rle dbg n m (t : tabler T) : n <= m -> rle (slr_with_table dbg n t) (slr_with_table dbg m t).
Proof. intros L. unfold slr_with_table. apply rle_bind; [now apply proc_closures_rle|]. intros; apply rle_refl. Qed.
Lemma clr_with_rle dbg n m (t : tabler T) : n <= m -> rle (clr_with_table dbg n t) (clr_with_table dbg m t).
Proof. intros L. unfold clr_with_table. apply rle_bind; [now apply proc_closures_rle|]. intros; apply rle_refl. Qed.
Lemma lalr_with_rle dbg n m (t : tabler T) : n <= m -> rle (lalr_with_table dbg n t) (lalr_with_table dbg m t).
Proof. intros L. unfold lalr_with_table. apply rle_bind; [now apply lalr_closures_rle|]. intros; apply rle_refl. Qed.
Lemma slr_new_rle dbg n m (g : grammar T) : n <= m -> rle (slr_new dbg n g) (slr_new dbg m g).
Proof. intros L. apply rle_bind; [now apply tabler_rle|]. intros. now apply slr_with_rle. Qed.
Lemma clr_new_rle dbg n m (g : grammar T) : n <= m -> rle (clr_new dbg n g) (clr_new dbg m g).
Proof. intros L. apply rle_bind; [now apply tabler_rle|]. intros. now apply clr_with_rle. Qed.
Lemma lalr_new_rle dbg n m (g : grammar T) : n <= m -> rle (lalr_new dbg n g) (lalr_new dbg m g).
Proof. intros L. apply rle_bind; [now apply tabler_rle|]. intros. now apply lalr_with_rle. Qed.

Section Dfa.
Context {M : Type}.

Lemma travel_rle n : forall m (d : dfa T M) s, n <= m -> rle (travel n d s) (travel m d s).
Proof.
  induction n as [|n IH]; intros [|m] d s L; try apply rle_fuel; [lia|]. cbn [travel].
  destruct (nth_error _ _) as [row|]; [|apply rle_refl]. destruct (bm_get s row) as [[to|to|name pr| |a b]|]; try apply rle_refl.
  apply rle_bind; [apply rle_refl|]. intros d'. apply IH. lia.
Qed.

Lemma start_rle n : forall m (d : dfa T M), n <= m -> rle (dfa_start n d) (dfa_start m d).
Proof.
  induction n as [|n IH]; intros [|m] d L; try apply rle_fuel; [lia|]. cbn [dfa_start].
  destruct (d_finished d); [apply rle_refl|]. apply rle_bind; [apply travel_rle; lia|]. intros [d' [|e]]; [|apply rle_refl]. apply IH. lia.
Qed.

Lemma parse_rle n m (t : tabler T) input (maps : reductmap T M) : n <= m -> rle (parser_parse n t input maps) (parser_parse m t input maps).
Proof.
  intros L. unfold parser_parse. apply rle_bind; [apply rle_refl|]. intros d. apply rle_bind; [now apply start_rle|]. intros; apply rle_refl.
Qed.

Lemma dfa_parse_rle n m (d : dfa T M) input : n <= m -> rle (dfa_parse n d input) (dfa_parse m d input).
Proof.
  intros L. unfold dfa_parse. apply rle_bind; [now apply start_rle|]. intros; apply rle_refl.
Qed.
End Dfa.
End Mono.

(** ** debug and release builds: a debug build that does not panic computes what the release build computes *)
Definition vle {A} (r r' : res A) : Prop := forall a, r = Val a -> r' = Val a.

Lemma vle_refl {A} (r : res A) : vle r r.
Proof. intros a. auto. Qed.
Lemma vle_bind {A B} (r r' : res A) (f f' : A -> res B) : vle r r' -> (forall a, vle (f a) (f' a)) -> vle (bind r f) (bind r' f').
Proof. intros H1 H2 b E. apply bind_val in E as (a & E1 & E2). rewrite (H1 _ E1). simpl. now apply H2. Qed.
Lemma vle_foldM {A B} (f f' : B -> A -> res B) l : (forall b x, vle (f b x) (f' b x)) -> forall b, vle (foldM f l b) (foldM f' l b).
Proof. intros H. induction l as [|x l IH]; intros b; simpl; [apply vle_refl|]. apply vle_bind; auto. Qed.
Lemma vle_dassert c : vle (dassert true c) (dassert false c).
Proof. intros []. reflexivity. Qed.

Section Build.
Context {T : Type} {OT : Ord T}.

Lemma grammar_vle start (rules : rulemap T) eof : vle (grammar_new true start rules eof) (grammar_new false start rules eof).
Proof.
  unfold grammar_new. apply vle_bind; [apply vle_refl|]. intros r. apply vle_bind; [apply vle_dassert|]. intros _. apply vle_refl.
Qed.

Lemma tabler_vle n (g : grammar T) : vle (tabler_new true n g) (tabler_new false n g).
Proof.
  unfold tabler_new, proc_first, proc_follow. apply vle_bind; [apply vle_refl|]. intros f0. apply vle_bind.
  - apply vle_bind; [apply vle_refl|]. intros f. apply vle_bind; [apply vle_dassert|]. intros; apply vle_refl.
  - intros f. apply vle_bind; [apply vle_refl|]. intros w0. apply vle_bind; [|intros; apply vle_refl].
    apply vle_bind; [apply vle_refl|]. intros w. apply vle_bind; [apply vle_dassert|]. intros; apply vle_refl.
Qed.

Section Closure.
Variable closure : state T -> res (state T).

Lemma proc_syms_vle n syms row kss : vle (proc_syms true closure n syms row kss) (proc_syms false closure n syms row kss).
Proof.
  unfold proc_syms. apply vle_foldM. intros [ks sts] x. apply vle_bind; [apply vle_refl|]. intros [[kernel cl]|]; [|apply vle_refl].
  apply vle_bind; [apply vle_dassert|]. intros; apply vle_refl.
Qed.

Lemma proc_rows_vle syms c : forall n idx kss, vle (proc_rows true closure c syms n idx kss) (proc_rows false closure c syms n idx kss).
Proof.
  induction n as [|n IH]; intros idx kss; [apply vle_refl|]. cbn [proc_rows].
  destruct (nth_error (snd kss) idx); [|apply vle_refl]. apply vle_bind; [apply proc_syms_vle|]. intros kss'. apply IH.
Qed.

Lemma proc_closures_vle n (g : grammar T) : vle (proc_closures true closure n g) (proc_closures false closure n g).
Proof. unfold proc_closures. apply vle_bind; [apply vle_refl|]. intros. apply proc_rows_vle. Qed.

Lemma update_state_vle p main inc cl : vle (update_state true p main inc cl) (update_state (T := T) false p main inc cl).
Proof.
  unfold update_state. destruct (bm_get main (l_kernels p)); [|apply vle_refl]. destruct (eqb _ _); [apply vle_refl|].
  apply vle_bind; [apply vle_refl|]. intros old. apply vle_bind; [apply vle_dassert|]. intros; apply vle_refl.
Qed.

Lemma update_vle syms c : forall n,
  (forall p main inc cl, vle (update_closures true closure c syms n p main inc cl) (update_closures false closure c syms n p main inc cl)) /\
  (forall p id nk, vle (regen true closure c syms n p id nk) (regen false closure c syms n p id nk)).
Proof.
  induction n as [|n [IH1 IH2]].
  - split; intros; apply vle_refl.
  - split.
    + intros p main inc cl. cbn [update_closures]. apply vle_bind; [apply update_state_vle|]. intros [p1 [nk|]]; [|apply vle_refl].
      apply vle_bind; [apply vle_refl|]. intros id. apply vle_bind; [apply IH2|]. intros [p2 nk2]. apply vle_refl.
    + intros p id nk. cbn [regen]. revert p.
      match goal with |- forall p, vle (?G syms p) (?G' syms p) => set (go := G); set (go' := G') end.
      enough (forall ss p, vle (go ss p) (go' ss p)) by auto.
      induction ss as [|s ss IHs]; intros p; [apply vle_refl|]. subst go go'. cbn iota beta fix.
      apply vle_bind; [apply vle_refl|]. intros [[kernel cl]|]; [|apply IHs].
      destruct (bm_get (without_look kernel) (l_raws p)) as [mk|]; [|apply IHs].
      apply vle_bind; [apply IH1|]. intros [p' [nk'|]]; [|apply IHs].
      apply vle_bind; [apply vle_refl|]. intros u. destruct (_ && _); [apply IH2|apply IHs].
Qed.

Lemma lalr_syms_vle syms n idx row : forall ss p,
  vle (lalr_syms true closure n syms idx row ss p) (lalr_syms false closure n syms idx row ss p).
Proof.
  induction ss as [|s ss IH]; intros p; [apply vle_refl|]. cbn [lalr_syms].
  apply vle_bind; [apply vle_refl|]. intros [[kernel cl]|]; [|apply IH].
  destruct (bm_get (without_look kernel) (l_raws p)) as [mk|].
  - apply vle_bind; [apply update_vle|]. intros [p' [nk'|]]; [|apply IH].
    apply vle_bind; [apply vle_refl|]. intros u. destruct (_ && _); [apply vle_refl|apply IH].
  - apply vle_bind; [apply vle_dassert|]. intros _. apply IH.
Qed.

Lemma lalr_rows_vle syms c : forall n idx p, vle (lalr_rows true closure c syms n idx p) (lalr_rows false closure c syms n idx p).
Proof.
  induction n as [|n IH]; intros idx p; [apply vle_refl|]. cbn [lalr_rows].
  destruct (nth_error (l_states p) idx); [|apply vle_refl]. apply vle_bind; [apply lalr_syms_vle|]. intros [p' again]. apply IH.
Qed.

Lemma lalr_closures_vle n (g : grammar T) : vle (lalr_closures true closure n g) (lalr_closures false closure n g).
Proof. unfold lalr_closures. apply vle_bind; [apply vle_refl|]. intros. apply lalr_rows_vle. Qed.
End Closure.

Lemma slr_new_vle n (g : grammar T) : vle (slr_new true n g) (slr_new false n g).
Proof.
  apply vle_bind; [apply tabler_vle|]. intros t. unfold slr_with_table. apply vle_bind; [apply proc_closures_vle|]. intros; apply vle_refl.
Qed.
Lemma clr_new_vle n (g : grammar T) : vle (clr_new true n g) (clr_new false n g).
Proof.
  apply vle_bind; [apply tabler_vle|]. intros t. unfold clr_with_table. apply vle_bind; [apply proc_closures_vle|]. intros; apply vle_refl.
Qed.
Lemma lalr_new_vle n (g : grammar T) : vle (lalr_new true n g) (lalr_new false n g).
Proof.
  apply vle_bind; [apply tabler_vle|]. intros t. unfold lalr_with_table. apply vle_bind; [apply lalr_closures_vle|]. intros; apply vle_refl.
Qed.
Lemma reduce_vle (t : tabler T) : vle (reduce_equals true t) (reduce_equals false t).
Proof.
  unfold reduce_equals, reduced_actions. apply vle_bind; [|intros; apply vle_refl]. apply vle_bind; [apply vle_refl|].
  intros [[am tv] ac]. apply vle_bind; [apply vle_dassert|]. intros; apply vle_refl.
Qed.
End Build.
