(** States and kernels are in the order of their positions (C139). *)
From Coq Require Import List Arith Lia Sorted String.
From Verif Require Import BTree Model Base Spec SpecP GrammarP FirstFollow Closure Canon ActTab LR CanonLR Merged Lalr LalrLR Agree Interface Wrap Final LR1Spec Handle HandleF LalrClr Cores StatesSpec StatesP OrderSpec Strings Check Examples Refute Refute2 TextEx.
Import ListNotations.

Section Order.
Context {T : Type} {OT : Ord T}.

Lemma lexc_lt c d : lexc c d = Lt <-> c = Lt \/ (c = Eq /\ d = Lt).
Proof. destruct c; cbn; split; intros H; auto; try discriminate; destruct H as [H|[H H']]; auto; discriminate. Qed.
Lemma dict_ok (l m : list T) : cmp l m = Lt <-> dictionary l m.
Proof.
  change (cmp_list l m = Lt <-> dictionary l m). split.
  - revert m. induction l as [|x l IH]; intros [|y m] H; try discriminate H; [constructor|]. cbn in H. apply lexc_lt in H as [H|[E H]]; [now apply dict_head|]. apply cmp_eq in E. subst y. apply dict_tail. auto.
  - induction 1 as [|x y l m H|x l m _ IH]; cbn; auto; apply lexc_lt; auto. right. split; auto. now apply cmp_eq.
Qed.
Lemma pair_lt {A B} {OA : Ord A} {OB : Ord B} (x y : A * B) : cmp x y = Lt <-> cmp (fst x) (fst y) = Lt \/ (fst x = fst y /\ cmp (snd x) (snd y) = Lt).
Proof. change (cmp_pair x y = Lt <-> cmp (fst x) (fst y) = Lt \/ (fst x = fst y /\ cmp (snd x) (snd y) = Lt)). unfold cmp_pair. rewrite lexc_lt, cmp_eq. tauto. Qed.
Lemma nat_lt (a b : nat) : cmp a b = Lt <-> a < b.
Proof. exact (Nat.compare_lt_iff a b). Qed.
Lemma before_ok (p q : position T) : cmp p q = Lt <-> before p q.
Proof.
  change (cmp (pos_tuple p) (pos_tuple q) = Lt <-> before p q). unfold pos_tuple, before, lower. rewrite !pair_lt. cbn [fst snd]. rewrite !dict_ok, !nat_lt.
  destruct p as [A [r i] n l], q as [A' [r' i'] n' l']. cbn [p_rule p_seq p_point p_look fst snd].
  assert ((r, i) = (r', i') <-> r = r' /\ i = i') as -> by (split; [intros [= -> ->]; auto|intros [-> ->]; auto]).
  assert (cmp (r, i) (r', i') = Lt <-> dictionary r r' \/ (r = r' /\ i < i')) as -> by (rewrite <- dict_ok, <- nat_lt; exact (pair_lt (r, i) (r', i'))). tauto.
Qed.
Lemma sorted_before (row : state T) : sorted row -> StronglySorted before row.
Proof.
  induction row as [|p row IH]; intros H; [constructor|]. destruct H as [H1 H2]. constructor; auto. apply Forall_forall. intros q Hq. now apply before_ok, H1.
Qed.

Variables (dbg : bool) (start eof : T) (rules : rulemap T) (g : grammar T).
Hypothesis W : wf_rules rules.
Hypothesis Hg : grammar_new dbg start rules eof = Val g.

Theorem states_order k t : makes k dbg g t -> forall row, In row (t_states t) -> StronglySorted before row.
Proof.
  intros Hm row Hr. apply In_nth_error in Hr as (q & Hr). apply sorted_before.
  destruct (makes_tabler _ _ _ _ _ W Hg _ _ Hm) as (tb & _ & F & fm & Em). destruct k.
  - destruct (slr_inv _ _ _ _ _ W Hg _ F _ _ Em) as (_ & _ & _ & HC & _). now destruct (canon_row _ _ _ _ HC _ _ Hr) as (? & ? & _).
  - destruct (clr_inv _ _ _ _ _ W Hg _ F _ _ Em) as (_ & _ & _ & HC & _). now destruct (canon_row _ _ _ _ HC _ _ Hr) as (? & ? & _).
  - destruct Em as (p & Em). destruct (lalr_inv _ _ _ _ _ W Hg _ F _ _ _ Em) as (_ & _ & _ & Es & _ & HC & _). specialize (HC _ (Qtrue _ _ _ _)) as [HI _].
    rewrite Es in Hr. exact (li_sorted _ _ _ _ _ HI _ _ Hr).
Qed.
End Order.

Lemma calc_second : exists row, nth_error (t_states (calc_tab SLR)) 1 = Some row /\
  map (fun p => (p_rule p, fst (p_seq p), p_point p)) row =
    [("E", ["E"; "+"; "T"], 0); ("E", ["T"], 0); ("T", ["("; "E"; ")"], 0); ("T", ["("; "E"; ")"], 1); ("T", ["n"], 0)]%string.
Proof.
  destruct (nth_error (t_states (calc_tab SLR)) 1) as [row|] eqn:E; [|vm_compute in E; discriminate E]. exists row. split; [reflexivity|].
  vm_compute in E. injection E as <-. reflexivity.
Qed.
