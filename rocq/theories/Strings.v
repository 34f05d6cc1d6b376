(** The symbol type of the repository's own tests: [&'static str], ordered bytewise. *)
From Coq Require Import List Ascii String NArith Lia.
From Verif Require Import BTree.
Import ListNotations.

#[global] Instance Ord_N : Ord N.
Proof.
  refine {| cmp := N.compare |}.
  - apply N.compare_eq_iff.
  - intros a b. apply N.compare_antisym.
  - intros a b c. rewrite !N.compare_lt_iff. lia.
Defined.

Definition str_key (s : string) : list N := map N_of_ascii (list_ascii_of_string s).

Lemma str_key_inj a b : str_key a = str_key b -> a = b.
Proof.
  unfold str_key. intros E.
  assert (G : forall l m, map N_of_ascii l = map N_of_ascii m -> l = m).
  { induction l as [|x l IH]; intros [|y m]; simpl; try discriminate; auto.
    intros [= E1 E2]. f_equal; auto. rewrite <- (ascii_N_embedding x), E1. apply ascii_N_embedding. }
  apply G in E. rewrite <- (string_of_list_ascii_of_string a), E.
  apply string_of_list_ascii_of_string.
Qed.

#[global] Instance Ord_string : Ord string := Ord_inj str_key str_key_inj.
