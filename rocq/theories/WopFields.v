(** What the printed tree says about each node (C101). *)
From Coq Require Import List Bool Arith String.
From Verif Require Import BTree Model Strings Wop WopSpec WopLex Base WopText WopPrint WopPrintSpec WopPrintP.
Import ListNotations.
Local Open Scope list_scope.
Local Infix "+++" := String.append (right associativity, at level 60).

Section Print.
Variable debug : string -> string.
Variable src : string.
Local Notation print_nested := (print_nested debug src).

(** the lines of a node among those of a tree it is in *)
Definition among (h : gramem) (l : list string) : Prop := exists prefix lvl l1 m l2, l = l1 ++ m ++ l2 /\ print_nested h prefix lvl = Val m.
Lemma among_app h a l b : among h l -> among h (a ++ l ++ b).
Proof. intros (p & n & l1 & m & l2 & -> & E). exists p, n, (a ++ l1), m, (l2 ++ b). split; auto. now rewrite <- !app_assoc. Qed.
Lemma among_skip h x l : among h l -> among h (x :: l).
Proof. intros H. apply (among_app h [x] l []) in H. now rewrite app_nil_r in H. Qed.
Lemma among_left h l b : among h l -> among h (l ++ b).
Proof. exact (among_app h [] l b). Qed.
Lemma among_right h a l : among h l -> among h (a ++ l).
Proof. intros H. apply (among_app h a l []) in H. now rewrite app_nil_r in H. Qed.

Lemma p_all_among gs h : In h gs -> forall prefix lvl l, p_all debug src prefix lvl gs = Val l -> among h l.
Proof.
  induction gs as [|g gs IH]; intros Hi prefix lvl l E; [contradiction|]. rewrite p_all_cons in E. apply bind_val in E as (x & Ex & E). apply bind_val in E as (y & Ey & E). injection E as <-.
  destruct Hi as [->|Hi]; [|apply among_right; eauto]. apply among_left. exists prefix, lvl, [], x, []. now rewrite app_nil_r.
Qed.
Lemma p_prods_among r h : In h (flat_map fst r) -> forall lvl i l, p_prods debug src lvl i r = Val l -> among h l.
Proof.
  induction r as [|[gs cb] r IH]; intros Hi lvl i l E; [contradiction|]. simpl in Hi.
  cbn [p_prods] in E. apply bind_val in E as (x & Ex & E). apply bind_val in E as (c & _ & E). fold (p_prods debug src lvl) in E. apply bind_val in E as (y & Ey & E). injection E as <-.
  apply among_skip. apply in_app_or in Hi as [Hi|Hi]; [apply among_left; eapply p_all_among; eauto|]. apply among_right. apply among_skip. eauto.
Qed.
Lemma child_among g h prefix lvl l : In h (children g) -> print_nested g prefix lvl = Val l -> among h l.
Proof.
  intros Hi E. rewrite print_eq in E. apply bind_val in E as (t & _ & E). cbv zeta in E. apply bind_val in E as (rest & Er & E). injection E as <-. apply among_skip.
  unfold children in Hi. destruct (g_ast g) as [s|g'|gs|i t' r|r|gs|g' o al c|s|tk al|s]; try contradiction.
  - destruct Hi as [->|[]]. exists ""%string, (S lvl), [], rest, []. now rewrite app_nil_r.
  - eapply p_all_among; eauto.
  - apply bind_val in Er as (a & _ & Er). apply bind_val in Er as (b & _ & Er). apply bind_val in Er as (z & Ez & Er). injection Er as <-. do 2 apply among_skip. eapply p_prods_among; eauto.
  - eapply p_prods_among; eauto.
  - eapply p_all_among; eauto.
  - destruct Hi as [->|[]]. apply bind_val in Er as (x & Ex & Er). apply bind_val in Er as (n & _ & Er). injection Er as <-. apply among_left. exists ""%string, (S lvl), [], x, []. now rewrite app_nil_r.
Qed.
Lemma inside_among g h : inside h g -> forall prefix lvl l, print_nested g prefix lvl = Val l -> among h l.
Proof.
  induction 1 as [|g g' Hi H IH]; intros prefix lvl l E; [exists prefix, lvl, [], l, []; now rewrite app_nil_r|].
  destruct (child_among _ _ _ _ _ Hi E) as (p & n & l1 & m & l2 & -> & E'). apply among_app. eauto.
Qed.

Lemma node_tells g prefix lvl l : print_nested g prefix lvl = Val l -> tells debug src (S lvl) g l.
Proof.
  intros E. rewrite print_eq in E. apply bind_val in E as (t & Et & E). cbv zeta in E. apply bind_val in E as (rest & Er & E). injection E as <-. apply from_val in Et. subst t.
  exists (indent lvl +++ prefix +++ sym_name (tk_ty g) +++ ": " +++ bright (slice src (g_span g))), rest. split; auto. split; [now exists lvl, prefix|].
  destruct (g_ast g) as [s|g'|gs|i t r|r|gs|g' o al c|s|tk al|s]; auto.
  - now injection Er as <-.
  - apply bind_val in Er as (a & Ea & Er). apply bind_val in Er as (b & Eb & Er). apply bind_val in Er as (z & Ez & Er). injection Er as <-. unfold field in Ea, Eb.
    apply bind_val in Ea as (a' & Ea & E). injection E as <-. apply bind_val in Eb as (b' & Eb & E). injection E as <-. apply from_val in Ea. apply from_val in Eb. subst a' b'. exists z. reflexivity.
  - apply bind_val in Er as (x & Ex & Er). apply bind_val in Er as (n & En & Er). injection Er as <-. exists x. unfold bool_name. destruct al as [s|].
    + apply bind_val in En as (t & Et & En). injection En as <-. apply from_val in Et. now subst t.
    + now injection En as <-.
  - apply bind_val in Er as (t & Et & Er). injection Er as <-. apply from_val in Et. now subst t.
  - apply bind_val in Er as (t & Et & Er). apply bind_val in Er as (u & Eu & Er). injection Er as <-. apply from_val in Et. apply from_val in Eu. now subst t u.
  - apply bind_val in Er as (t & Et & Er). injection Er as <-. apply from_val in Et. now subst t.
Qed.
Theorem print_tells g prefix lvl l h : print_nested g prefix lvl = Val l -> inside h g -> exists n l1 m l2, l = l1 ++ m ++ l2 /\ tells debug src n h m.
Proof. intros E H. destruct (inside_among _ _ H _ _ _ E) as (p & n & l1 & m & l2 & -> & E'). exists (S n), l1, m, l2. split; auto. eapply node_tells; eauto. Qed.
End Print.
