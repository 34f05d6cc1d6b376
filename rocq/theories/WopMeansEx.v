(** A calculator file and what its generated parser computes. *)
From Coq Require Import List Bool Arith Lia Ascii String Permutation.
From Verif Require Import BTree Model Strings Wop WopSpec WopP WopDump WopText WopLex WopRead WopGen WopMeansSpec WopMeans WopExport WopEx Spec Base SpecP Interface Check Refute.
Import ListNotations.
Local Open Scope string_scope.
Local Open Scope list_scope.
Local Open Scope nat_scope.

Definition sums_src : string :=
  "alias ""+"" Plus; EntryPoint: T = E -> { }% ; E: T = E:l (""+"" | Minus):op N:r X?:x -> { bin }% | N:n -> { num }% ;".
Lemma sums_fine : fine sums_src = true.
Proof. vm_compute. reflexivity. Qed.

(** [bin] adds or subtracts (finding the right operand as [toks[2]]), and doubles if there is an X *)
Definition num_of (o : option (bound (gtok nat))) : nat := match o with Some (One t) => fst (tk_item t) | _ => 0 end.
Definition sums_code (c : string) (l : list (gtok nat)) (e : string -> option (bound (gtok nat))) : nat :=
  if String.eqb c " { num }" then num_of (e "n")
  else if String.eqb c " { bin }" then
    let v := match e "op" with
      | Some (Slice [t]) => if String.eqb (tk_ty t) "Plus" then num_of (e "l") + num_of (e "r") else num_of (e "l") - num_of (option_map One (nth_error l 2))
      | _ => 0
      end in
    match e "x" with Some Absent => v | _ => 2 * v end
  else 0.
Lemma sums_respects : respects sums_code.
Proof. intros c l e e' H. unfold sums_code. now rewrite !H. Qed.

Definition gtoken (ty : string) (v : nat) (s : span) : gtok nat := mkTok (v, s) ty.
(** 7 - 2 X + 4 *)
Definition sums_in : list (gtok nat) := [gtoken "N" 7 (0, 1); gtoken "Minus" 0 (2, 3); gtoken "N" 2 (4, 5); gtoken "X" 0 (5, 6); gtoken "Plus" 0 (7, 8); gtoken "N" 4 (9, 10)].
Definition sums_rules : rulemap string := grammar_map [("E", [["E"; "Plus"; "N"; "X"]; ["E"; "Plus"; "N"]; ["E"; "Minus"; "N"; "X"]; ["E"; "Minus"; "N"]; ["N"]]); ("EntryPoint", [["E"]])].
Definition sums_gr (dbg : bool) : grammar string := match grammar_new dbg "EntryPoint" sums_rules "Eof" with Val g => g | _ => mkGrammar [] [] [] (mkPos "" ([], 0) 0 []) end.

Lemma sums_dump dbg : dump_grammar (slice sums_src) (built_from dbg sums_src) = [("E", [["E"; "Plus"; "N"; "X"]; ["E"; "Plus"; "N"]; ["E"; "Minus"; "N"; "X"]; ["E"; "Minus"; "N"]; ["N"]]); ("EntryPoint", [["E"]])].
Proof. destruct dbg; vm_compute; reflexivity. Qed.

Lemma syms_good text l : (forall p, In p l -> exists s o a c, p = PSym s o a c) -> Forall (good_item text) l.
Proof. intros H. apply Forall_forall. intros p Hp. destruct (H p Hp) as (s & o & a & c & ->). constructor. Qed.
Ltac apart := unfold distinct; repeat (apply FOP_cons; [repeat (apply Forall_cons; [|]); try apply Forall_nil; intros n Hn Hn'; vm_compute in Hn; vm_compute in Hn'; intuition (subst; discriminate)|]); apply FOP_nil.
Lemma sums_sane : sane (slice sums_src) (decls_of sums_src).
Proof.
  intros name ty alts alt Hd Ha.
  assert (E : decls_of sums_src = [DAlias (6, 9) (10, 14); DRule (16, 26) (28, 29) [([PSym (32, 33) false None false], (34, 41))];
    DRule (44, 45) (47, 48) [([PSym (51, 52) false (Some (53, 54)) false; PGroup [([PSym (56, 59) false None false], (0, 0)); ([PSym (62, 67) false None false], (0, 0))] false (Some (69, 71)) false;
      PSym (72, 73) false (Some (74, 75)) false; PSym (76, 77) true (Some (79, 80)) false], (81, 92)); ([PSym (95, 96) false (Some (97, 98)) false], (99, 110))]]) by (vm_compute; reflexivity).
  rewrite E in Hd. clear E. destruct Hd as [Hd|[Hd|[Hd|[]]]]; [discriminate| |]; injection Hd as <- <- <-; [destruct Ha as [<-|[]]|destruct Ha as [<-|[<-|[]]]]; cbn [fst];
    (split; [|split; [vm_compute; intuition discriminate|intros w Hw ->; apply expand_picks in Hw; vm_compute in Hw; intuition discriminate]]).
  - split; [apply syms_good; intros p [<-|[]]; eauto|apart].
  - split; [|apart]. repeat (apply Forall_cons; [try apply good_sym|]); [|apply Forall_nil]. apply good_group.
    + intros v [<-|[<-|[]]]; (split; [repeat constructor|]); simpl; repeat (constructor; simpl; try easy).
    + intros v n w e [<-|[<-|[]]] Hn _; destruct Hn.
    + intros v v' s s' [<-|[<-|[]]] _ Hs; destruct Hs.
    + intros b v w _ [<-|[<-|[]]] Hw; simpl in Hw; destruct Hw as [<-|[]]; reflexivity.
    + intros b v _ [<-|[<-|[]]] F; destruct F.
  - split; [apply syms_good; intros p [<-|[]]; eauto|apart].
Qed.
Lemma sums_rules_wf : wf_rules sums_rules. Proof. apply grammar_map_wf. Qed.
Lemma sums_gr_eq dbg : grammar_new dbg "EntryPoint" sums_rules "Eof" = Val (sums_gr dbg).
Proof. destruct dbg; vm_compute; reflexivity. Qed.
Definition sums_t (k : method) (dbg : bool) : tabler string := tab k dbg 60 (sums_gr dbg).
Lemma sums_t_makes k dbg : makes k dbg (sums_gr dbg) (sums_t k dbg).
Proof. apply tab_makes. destruct k, dbg; vm_compute; reflexivity. Qed.
Lemma sums_t_carries k dbg : k <> LALR \/ carries (sums_t k dbg).
Proof. destruct k; [left; discriminate..|]. right. apply carries_ok. destruct dbg; vm_compute; reflexivity. Qed.
Lemma sums_t_clean k dbg : conflicts (t_actions (sums_t k dbg)) = [].
Proof. destruct k, dbg; vm_compute; reflexivity. Qed.
Lemma sums_rest : ~ In "Eof" (rule_names (slice sums_src) (decls_of sums_src)) /\ start_fresh sums_rules "EntryPoint" /\ no_unit_cycle sums_rules.
Proof.
  split; [vm_compute; intuition discriminate|]. split; [apply (fresh_ok sums_rules sums_rules_wf); vm_compute; reflexivity|]. apply (unit_ok sums_rules sums_rules_wf ["E"; "EntryPoint"]). vm_compute. reflexivity.
Qed.
Lemma sums_parse k dbg : parses (sums_t k dbg) (map sent sums_in) (gen_maps sums_code (reductors_of dbg sums_src)) (POk (Val (14, (0, 10)))).
Proof. exists 60. destruct k, dbg; vm_compute; reflexivity. Qed.
Definition sums_wrong : list (gtok nat) := [gtoken "N" 7 (0, 1); gtoken "Minus" 0 (2, 3); gtoken "X" 0 (4, 5)].
Lemma sums_rejects k dbg : exists e, parses (sums_t k dbg) (map sent sums_wrong) (gen_maps sums_code (reductors_of dbg sums_src)) (PErr e).
Proof. eexists. exists 60. destruct k, dbg; vm_compute; reflexivity. Qed.
Lemma sums_terms : Forall (fun x => ~ In (tk_ty x) (rule_names (slice sums_src) (decls_of sums_src))) (sums_in ++ sums_wrong).
Proof. repeat (constructor; [vm_compute; intuition discriminate|]). constructor. Qed.
Lemma sums_all dbg : reads (slice sums_src) keep dbg (toks sums_src) (Val (inl (built_from dbg sums_src))) /\ file_toks (toks sums_src) (decls_of sums_src) /\
  dump_reductor (slice sums_src) (built_from dbg sums_src) = Val (reductors_of dbg sums_src) /\ sums_rules = grammar_map (dump_grammar (slice sums_src) (built_from dbg sums_src)).
Proof. destruct (fine_facts sums_src dbg sums_fine) as (H1 & H2 & H3). split; [exact H1|]. split; [exact H3|]. split; [exact H2|]. rewrite sums_dump. reflexivity. Qed.
Lemma sums_means : means_file (slice sums_src) sums_code (decls_of sums_src) "EntryPoint" sums_in (14, (0, 10)).
Proof.
  set (dbg := true).
  destruct (sums_all dbg) as (H1 & H2 & H3 & H4). pose proof (sums_gr_eq dbg) as Hg. destruct sums_rest as (R1 & R2 & R3). rewrite H4 in Hg, R2.
  destruct (proj1 (gen_means (slice sums_src) keep keep_iterates dbg sums_code _ _ _ _ _ _ H1 H2 (Permutation_refl _) H3 (Permutation_refl _) sums_sane sums_respects
    "EntryPoint" "Eof" _ SLR _ Hg (sums_t_makes SLR dbg) (sums_t_carries SLR dbg) R1 R2 (sums_t_clean SLR dbg) sums_in (Val (14, (0, 10)))) (sums_parse SLR dbg)) as (v & [= <-] & H). exact H.
Qed.
