(** Alternatives whose names differ, read right and read wrong. *)
From Coq Require Import List Bool Arith Ascii String Permutation.
From Verif Require Import BTree Model Strings Wop WopSpec WopFront WopP WopExport WopRead WopLex WopText WopTextP WopRun WopEx WopExactSpec WopExact WopExactT WopExactB WopRef.
Import ListNotations.
Local Open Scope list_scope.
Local Open Scope nat_scope.

Definition neat_src : string := "S: T = E:l (N:a P:b):g X?:x -> { c }% ;".
Lemma neat_fine : fine neat_src = true.
Proof. vm_compute. reflexivity. Qed.
Definition neat_alt : list pat * span := match nth_choice neat_src "S" 0 with Some (alt, _) => alt | None => ([], (0, 0)) end.
Lemma neat_emits dbg : exists r bs, emits (slice neat_src) keep dbg (toks neat_src) neat_alt r bs " { c }" /\ List.length (fst r) = 4 /\ List.length bs = 5.
Proof. eexists _, _. split; [apply (emits_at _ _ "S" 0); [exact neat_fine|vm_compute; reflexivity|destruct dbg; vm_compute; reflexivity]|]. split; reflexivity. Qed.
Ltac nodup := vm_compute; repeat (constructor; [simpl; intuition discriminate|]); constructor.
Lemma neat_facts : NoDup (pipe_names (slice neat_src) (fst neat_alt)) /\ ~ In "toks"%string (pipe_names (slice neat_src) (fst neat_alt)) /\ never_empty (fst neat_alt) /\ forallb firm (fst neat_alt) = true /\ forallb even (fst neat_alt) = true.
Proof. split; [nodup|]. split; [vm_compute; intuition discriminate|]. split; [apply never_empty_all; vm_compute; reflexivity|]. split; vm_compute; reflexivity. Qed.
Lemma neat_good : good (slice neat_src) (fst neat_alt).
Proof.
  assert (E : exists a1 a2 a3 a4 a5 s1 s2 s3 s4, fst neat_alt = [PSym s1 false (Some a1) false; PGroup [([PSym s2 false (Some a2) false; PSym s3 false (Some a3) false], (0, 0))] false (Some a4) false; PSym s4 true (Some a5) false]
    /\ map (slice neat_src) [a1; a2; a3; a4; a5] = ["l"; "a"; "b"; "g"; "x"]%string) by (do 9 eexists; split; vm_compute; reflexivity).
  destruct E as (a1 & a2 & a3 & a4 & a5 & s1 & s2 & s3 & s4 & -> & E). injection E as E1 E2 E3 E4 E5.
  assert (D : forall p q, (forall x y, In x (alias_spans p) -> In y (alias_spans q) -> slice neat_src x <> slice neat_src y) -> forall n, In n (item_names (slice neat_src) p) -> ~ In n (item_names (slice neat_src) q)).
  { intros p q H n Hn F. unfold item_names, names in *. apply in_map_iff in Hn as (x & Ex & Hx). apply in_map_iff in F as (y & Ey & Hy). apply (H x y Hx Hy). congruence. }
  split.
  - constructor; [constructor|]. constructor; [|constructor; [constructor|constructor]]. constructor.
    + intros v [<-|[]]. split; [repeat constructor|]. repeat (constructor; try (apply D; simpl; intros x y [<-|[]] [<-|[]]; congruence)).
    + intros v n w e [<-|[]] Hn [[= <- <-]|[]]. unfold pipe_names, names in Hn. simpl in Hn. destruct Hn as [<-|[<-|[]]]; simpl; rewrite ?E2, ?E3; discriminate.
    + intros v v' s s' [<-|[]] [<-|[]] Hs Hs' E. left. simpl in Hs, Hs'. destruct Hs as [<-|[<-|[]]], Hs' as [<-|[<-|[]]]; try reflexivity; congruence.
    + intros b v w _ [<-|[]] [<-|[]]. reflexivity.
    + intros b v [= <-] [<-|[]] F. unfold pipe_names, names in F. simpl in F. destruct F as [F|[F|[]]]; congruence.
  - unfold distinct. repeat (constructor; try (apply D; simpl; intros x y; intuition (subst; congruence))).
Qed.

Lemma bad_facts : NoDup (pipe_names (slice bad_src) (fst bad_alt)) /\ ~ In "toks"%string (pipe_names (slice bad_src) (fst bad_alt)) /\ never_empty (fst bad_alt) /\ forallb even (fst bad_alt) = true.
Proof. split; [nodup|]. split; [vm_compute; intuition discriminate|]. split; [apply never_empty_all; vm_compute; reflexivity|]. vm_compute; reflexivity. Qed.
Lemma bad_not_good : ~ good (slice bad_src) (fst bad_alt).
Proof.
  intros [G _]. assert (E : exists a s1 s2 s3, fst bad_alt = [PSym s1 false None false; PGroup [([PSym s2 true (Some a) false; PSym s3 true None false], (0, 0))] false None false]) by (do 4 eexists; vm_compute; reflexivity).
  destruct E as (a & s1 & s2 & s3 & E). rewrite E in G. inversion G as [|? ? _ G1]; subst. inversion G1 as [|? ? G2 _]; subst. inversion G2 as [|? ? ? ? _ H _ _ _]; subst. apply (H _ (slice bad_src a) [] [] (or_introl eq_refl)); [now left| |reflexivity]. simpl. tauto.
Qed.
(** the optional group of [opt_src] has an alias; the alternatives of that of [alt_src] differ in aliases *)
Lemma opt_facts dbg : exists alt r bs c, emits (slice opt_src) keep dbg (toks opt_src) alt r bs c /\ NoDup (pipe_names (slice opt_src) (fst alt)) /\ forallb firm (fst alt) = false.
Proof. eexists _, _, _, _. split; [apply (emits_at _ _ "S" 1); [isfine|vm_compute; reflexivity|destruct dbg; vm_compute; reflexivity]|]. split; [nodup|vm_compute; reflexivity]. Qed.
Lemma alt_facts dbg : exists alt r bs c, emits (slice alt_src) keep dbg (toks alt_src) alt r bs c /\ NoDup (pipe_names (slice alt_src) (fst alt)) /\ forallb firm (fst alt) = true /\ forallb even (fst alt) = false.
Proof. eexists _, _, _, _. split; [apply (emits_at _ _ "S" 1); [isfine|vm_compute; reflexivity|destruct dbg; vm_compute; reflexivity]|]. split; [nodup|]. split; vm_compute; reflexivity. Qed.

(** [ref_src] without its [&] *)
Definition unref_toks : list lexeme := filter (fun t => match fst t with Clone => false | _ => true end) (toks ref_src).
Lemma unref_facts dbg : exists ds ds' b, file_toks (toks ref_src) ds /\ file_toks unref_toks ds' /\ ds <> ds' /\ map unref_decl ds = map unref_decl ds' /\ reads (slice ref_src) keep dbg (toks ref_src) (Val (inl b)).
Proof.
  assert (E : exists ds', read_file 400 unref_toks = Some ds') by (eexists; vm_compute; reflexivity). destruct (fine_facts ref_src dbg) as (H1 & _ & H3); [isfine|].
  exists (decls_of ref_src), (match read_file 400 unref_toks with Some ds => ds | None => [] end), (built_from dbg ref_src). split; [exact H3|]. split; [|split; [|split; [|exact H1]]].
  - destruct E as (ds' & E). rewrite E. now apply read_file_sound in E.
  - vm_compute. discriminate.
  - vm_compute. reflexivity.
Qed.
