(** A grammar file whose names are visited in two orders. *)
From Coq Require Import List Bool Arith Lia String Permutation.
From Verif Require Import BTree Model Strings Base Wop WopSpec WopLex WopText WopRead WopEx WopOrderSpec.
Import ListNotations.
Local Open Scope string_scope.
Local Open Scope list_scope.
Local Open Scope nat_scope.

Definition backward (_ : prod_build) (_ : list prod_build) (l : list span) : list span := rev l.
Lemma backward_iterates : iterates backward.
Proof. intros p ps l. symmetry. apply Permutation_rev. Qed.
Definition order_src : string := "S: T = (A:x B:y | C) D:z -> { f(x, y, z) }% ;".
Definition built_back (dbg : bool) (src : string) : builder := match from_str one backward dbg 400 src with Val (inl b) => b | _ => builder_new end.
Lemma order_fine : fine order_src = true.
Proof. vm_compute. reflexivity. Qed.
Lemma order_back dbg : reads (slice order_src) backward dbg (toks order_src) (Val (inl (built_back dbg order_src))).
Proof.
  assert (H : forall d, match from_str one backward d 400 order_src with Val (inl _) => true | _ => false end = true) by (intros []; vm_compute; reflexivity). specialize (H dbg). unfold built_back.
  destruct (from_str one backward dbg 400 order_src) as [[b|e]|p|] eqn:E; try discriminate. apply (reads_run _ _ _ 400); [exact E|discriminate].
Qed.
Definition here (n : string) (i : nat) : binding := mkBind n (Some true) i None true.
Definition gone (n : string) : binding := mkBind n (Some false) 0 None false.
Definition last_z (i : nat) : binding := mkBind "z" None i None true.
Lemma order_rs dbg : dump_reductor (slice order_src) (built_from dbg order_src) =
  Val [("S", [([here "x" 0; here "y" 1; last_z 2], " { f(x, y, z) }"); ([gone "x"; gone "y"; last_z 1], " { f(x, y, z) }")])].
Proof. destruct dbg; vm_compute; reflexivity. Qed.
Lemma order_rs' dbg : dump_reductor (slice order_src) (built_back dbg order_src) =
  Val [("S", [([here "x" 0; here "y" 1; last_z 2], " { f(x, y, z) }"); ([gone "y"; gone "x"; last_z 1], " { f(x, y, z) }")])].
Proof. destruct dbg; vm_compute; reflexivity. Qed.
Lemma order_texts dbg : exists s s', write_out (slice order_src) (built_from dbg order_src) (b_rules (built_from dbg order_src)) = Val s /\
  write_out (slice order_src) (built_back dbg order_src) (b_rules (built_back dbg order_src)) = Val s' /\ s <> s'.
Proof.
  assert (H : forall d, match write_out (slice order_src) (built_from d order_src) (b_rules (built_from d order_src)), write_out (slice order_src) (built_back d order_src) (b_rules (built_back d order_src)) with
    | Val s, Val s' => negb (String.eqb s s') | _, _ => false end = true) by (intros []; vm_compute; reflexivity).
  specialize (H dbg). destruct (write_out _ (built_from dbg order_src) _) as [s|?|]; try discriminate. destruct (write_out _ (built_back dbg order_src) _) as [s'|?|]; try discriminate.
  exists s, s'. split; [reflexivity|]. split; [reflexivity|]. intros ->. now rewrite String.eqb_refl in H.
Qed.
Lemma order_refuted dbg : exists b b' s s', reads (slice order_src) keep dbg (toks order_src) (Val (inl b)) /\ reads (slice order_src) backward dbg (toks order_src) (Val (inl b')) /\
  write_out (slice order_src) b (b_rules b) = Val s /\ write_out (slice order_src) b' (b_rules b') = Val s' /\ s <> s'.
Proof.
  destruct (order_texts dbg) as (s & s' & H). exists (built_from dbg order_src), (built_back dbg order_src), s, s'. split; [exact (proj1 (fine_facts _ dbg order_fine))|]. split; [apply order_back|exact H].
Qed.
