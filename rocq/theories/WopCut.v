(** Slices succeed exactly between characters (C99). *)
From Coq Require Import List Bool Arith Lia Ascii String.
From Verif Require Import BTree Model Wop WopSpec WopLex WopStr WopLexP WopPrint WopPrintSpec WopUtf.
Import ListNotations.
Local Notation len := String.length.
Local Infix "+++" := String.append (right associativity, at level 60).

Lemma get_app a b : String.get (len a) (a +++ b) = String.get 0 b.
Proof. induction a as [|c a IH]; [reflexivity|exact IH]. Qed.
Lemma get_split i : forall s, i <= len s -> exists a b, s = a +++ b /\ len a = i.
Proof.
  induction i as [|i IH]; intros s H; [now exists ""%string, s|]. destruct s as [|c s]; [cbn in H; lia|]. destruct (IH s) as (a & b & -> & E); [cbn in H; lia|].
  exists (String c a), b. cbn. auto.
Qed.
Lemma get_len i : forall s c, String.get i s = Some c -> i <= len s.
Proof. induction i as [|i IH]; intros [|x s] c H; try discriminate; cbn; [lia|]. apply IH in H. lia. Qed.
Lemma app_empty a : a +++ ""%string = a.
Proof. induction a; cbn; congruence. Qed.

Lemma boundary_cuts src i : utf8 src -> (boundary src i = true <-> cuts src i).
Proof.
  intros U. unfold boundary. split.
  - intros H. apply orb_true_iff in H as [H|H].
    + apply Nat.eqb_eq in H. subst i. exists ""%string, src. repeat split; auto. constructor.
    + destruct (String.get i src) as [c|] eqn:E.
      * destruct (get_split i src (get_len _ _ _ E)) as (a & b & -> & L). subst i. rewrite get_app in E. destruct b as [|x b]; [discriminate|]. injection E as ->.
        apply negb_true_iff in H. exists a, (String c b). split; auto. split; auto. now apply utf8_before.
      * apply Nat.eqb_eq in H. subst i. exists src, ""%string. rewrite app_empty. repeat split; auto. constructor.
  - intros (a & b & -> & <- & Ha & Hb). apply orb_true_iff. right. rewrite get_app. destruct b as [|c b]; cbn.
    + rewrite app_empty. apply Nat.eqb_refl.
    + apply utf8_starts in Hb. cbn in Hb. now rewrite Hb.
Qed.
Theorem slice_exact src i j t : utf8 src -> (from_source src (i, j) = Val t <-> i <= j /\ cuts src i /\ cuts src j /\ t = substring i (j - i) src).
Proof.
  intros U. rewrite <- !boundary_cuts by auto. unfold from_source, slice. cbn [fst snd]. destruct (i <=? j) eqn:L; [apply Nat.leb_le in L|apply Nat.leb_gt in L].
  - destruct (boundary src i), (boundary src j); cbn; split; try discriminate; try (intros (_ & ? & ? & _); discriminate).
    + intros [= <-]. auto.
    + intros (_ & _ & _ & ->). reflexivity.
  - cbn. split; [discriminate|]. intros [H _]. lia.
Qed.
Lemma sub_mid a t b : substring (len a) (len t) (a +++ t +++ b) = t.
Proof. induction a as [|c a IH]; [|exact IH]. cbn [append len]. induction t as [|c t IH]; [now destruct b|]. cbn. now rewrite IH. Qed.
Theorem slice_parts src i j t : utf8 src ->
  (from_source src (i, j) = Val t <-> exists a b, src = a +++ t +++ b /\ len a = i /\ i + len t = j /\ utf8 a /\ utf8 t /\ utf8 b).
Proof.
  intros U. rewrite slice_exact by auto. split.
  - intros (L & (a & b & -> & <- & Ha & Hb) & (a' & b' & E & <- & Ha' & Hb') & ->). destruct (app_split _ _ _ _ E L) as (v & -> & ->).
    rewrite len_app. replace (len a + len v - len a) with (len v) by lia. rewrite sub_mid. exists a, b'. repeat split; auto.
    apply utf8_before in Hb as [Hv _]; auto. now apply utf8_starts.
  - intros (a & b & -> & <- & <- & Ha & Ht & Hb). replace (len a + len t - len a) with (len t) by lia. rewrite sub_mid. split; [lia|]. split; [|split; auto].
    + exists a, (t +++ b). repeat split; auto. now apply utf8_app.
    + exists (a +++ t), b. rewrite len_app. split; [now rewrite sapp_assoc|]. repeat split; auto. now apply utf8_app.
Qed.
