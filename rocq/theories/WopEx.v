(** wop on concrete grammar files, for the examples of Prop_Wop.v. *)
From Coq Require Import List Bool Arith Lia Ascii String Permutation.
From Verif Require Import BTree Model Strings Wop WopSpec WopP WopProc WopDump WopFront Base Mono WopParse WopExport WopRead WopLex WopLexSpec WopBoot.
Import ListNotations.
Local Open Scope list_scope.

Section M.
Variable text : span -> string.
Variable order : prod_build -> list prod_build -> list span -> list span.
Lemma reads_run dbg n ts r : from_tokens text order dbg n (map (fun t => lexed (fst t) (snd t)) ts) = r -> r <> Fuel -> reads text order dbg ts r.
Proof. intros E Hr. exists n. intros fuel Hf. rewrite <- E. apply from_tokens_rle; [exact Hf|]. now rewrite E. Qed.
End M.

(** ** files *)
Definition keep (_ : prod_build) (_ : list prod_build) (l : list span) : list span := l.
Lemma keep_iterates : iterates keep.
Proof. intros p ps l. apply Permutation_refl. Qed.
Definition one : logos := mkLogos [] (fun _ => 0).
Definition toks (src : string) : list lexeme := tokenize one src.
Definition built_from (dbg : bool) (src : string) : builder := match from_str one keep dbg 400 src with Val (inl b) => b | _ => builder_new end.
Definition decls_of (src : string) : list decl := match read_file 400 (toks src) with Some ds => ds | None => [] end.
Definition reductors_of (dbg : bool) (src : string) : list (string * list (list binding * string)) :=
  match dump_reductor (slice src) (built_from dbg src) with Val rs => rs | _ => [] end.
Definition fine (src : string) : bool :=
  forallb (fun dbg => match from_str one keep dbg 400 src with Val (inl b) => match dump_reductor (slice src) b with Val _ => true | _ => false end | _ => false end) [true; false] &&
  match read_file 400 (toks src) with Some _ => true | None => false end.
Lemma fine_facts src dbg : fine src = true ->
  reads (slice src) keep dbg (toks src) (Val (inl (built_from dbg src))) /\ dump_reductor (slice src) (built_from dbg src) = Val (reductors_of dbg src) /\ file_toks (toks src) (decls_of src).
Proof.
  unfold fine. intros H. apply andb_prop in H as [H H']. cbn [forallb] in H. apply andb_prop in H as [H1 H]. apply andb_prop in H as [H2 _].
  assert (Hd : match from_str one keep dbg 400 src with Val (inl b) => match dump_reductor (slice src) b with Val _ => true | _ => false end | _ => false end = true) by (destruct dbg; assumption). clear H1 H2.
  unfold reductors_of, built_from, decls_of. destruct (from_str one keep dbg 400 src) as [[b|e]|p|] eqn:E; try discriminate. split; [|split].
  - apply (reads_run _ _ _ 400); [exact E|discriminate].
  - destruct (dump_reductor (slice src) b); [reflexivity|discriminate..].
  - destruct (read_file 400 (toks src)) as [ds|] eqn:Er; [|discriminate]. now apply read_file_sound in Er.
Qed.
(** the [i]-th reductor of the rule called [n] *)
Definition nth_red (dbg : bool) (src n : string) (i : nat) : option (list binding * string) :=
  match find (fun e => String.eqb (fst e) n) (reductors_of dbg src) with Some e => nth_error (snd e) i | None => None end.
Fixpoint find_rule (text : span -> string) (n : string) (ds : list decl) : option (list decl * (span * span * list (list pat * span)) * list decl) :=
  match ds with
  | [] => None
  | DRule name ty alts :: ds' => if String.eqb (text name) n then Some ([], (name, ty, alts), ds')
      else match find_rule text n ds' with Some (a, x, b) => Some (DRule name ty alts :: a, x, b) | None => None end
  | d :: ds' => match find_rule text n ds' with Some (a, x, b) => Some (d :: a, x, b) | None => None end
  end.
Lemma find_rule_split text n : forall ds a name ty alts b, find_rule text n ds = Some (a, (name, ty, alts), b) -> ds = a ++ DRule name ty alts :: b /\ text name = n.
Proof.
  induction ds as [|d ds IH]; intros a name ty alts b E; [discriminate|]. simpl in E.
  assert (Z : match find_rule text n ds with Some (a, x, b) => Some (d :: a, x, b) | None => None end = Some (a, (name, ty, alts), b) -> d :: ds = a ++ DRule name ty alts :: b /\ text name = n).
  { clear E. destruct (find_rule text n ds) as [[[a' [[nm t] al]] b']|] eqn:E; [|discriminate]. intros [= <- -> -> -> ->]. destruct (IH _ _ _ _ _ eq_refl) as [-> H]. now split. }
  destruct d as [nm t al|s|tk al]; try exact (Z E). destruct (String.eqb (text nm) n) eqn:En; [|exact (Z E)]. injection E as <- -> -> -> ->. split; [reflexivity|]. now apply String.eqb_eq.
Qed.
Definition nth_choice (src n : string) (i : nat) : option ((list pat * span) * (list span * env)) :=
  match find_rule (slice src) n (decls_of src) with
  | Some (_, (_, _, alts), _) => nth_error (flat_map (fun alt => map (pair alt) (runs (fst alt))) alts) i
  | None => None
  end.
Lemma emits_at src dbg n i alt r bs c : fine src = true -> nth_choice src n i = Some (alt, r) -> nth_red dbg src n i = Some (bs, c) -> emits (slice src) keep dbg (toks src) alt r bs c.
Proof.
  intros H Hc Hr. destruct (fine_facts src dbg H) as (F1 & F2 & F3). unfold nth_choice in Hc. destruct (find_rule (slice src) n (decls_of src)) as [[[a [[name ty] alts]] b]|] eqn:Ef; [|discriminate].
  apply find_rule_split in Ef as [Ed En]. unfold nth_red in Hr. destruct (find (fun e => String.eqb (fst e) n) (reductors_of dbg src)) as [[n' fs]|] eqn:Ee; [|discriminate].
  apply find_some in Ee as [Hin E']. apply String.eqb_eq in E'. simpl in E'. subst n'.
  exists (built_from dbg src), (reductors_of dbg src), (decls_of src), a, name, ty, alts, b, fs, i. rewrite En. repeat split; assumption.
Qed.

Definition ok_src : string := "use a::*; alias ""+"" Plus; E: T = E:&l ""+"" (N:&r | ""("" L:&r):g X?:x -> { f(l, r, g, x) }% | N -> { h() }% ;".
Definition bad_src : string := "S: T = A (C?:x B?) -> { x }% ;".
Definition opt_src : string := "S: T = A (B C)?:x -> { x }% ;".
Definition alt_src : string := "S: T = (A:x | B) -> { x }% ;".
Definition ref_src : string := "S: T = A:x B:&y -> { x }% ;".
Definition late_src : string := "alias N M; S: T = ""+"" N -> { x }% ; alias ""+"" Plus; N: T = a ""+"" -> { y }% ;".
Definition twice_src : string := "S: T = a -> { x }% ; S: T = b -> { y }% ;".
Definition wrong_src : string := "S: T = a -> { x }% ; S: T b -> { y }% ;".
Lemma all_fine : forallb fine [ok_src; bad_src; opt_src; alt_src; ref_src; late_src] = true.
Proof. vm_compute. reflexivity. Qed.

Lemma each_fine src : In src [ok_src; bad_src; opt_src; alt_src; ref_src; late_src] -> fine src = true.
Proof. exact (proj1 (forallb_forall fine _) all_fine src). Qed.
Ltac isfine := apply each_fine; simpl; tauto.

(** a file whose aliases wop gets right *)
Definition ok_alt : list pat * span := match nth_choice ok_src "E" 2 with Some (alt, _) => alt | None => ([], (0, 0)) end.
Definition ok_run : list span * env := match nth_choice ok_src "E" 2 with Some (_, r) => r | None => ([], []) end.
Definition ok_bs : list binding := match nth_red true ok_src "E" 2 with Some (bs, _) => bs | None => [] end.
Lemma ok_emits dbg : emits (slice ok_src) keep dbg (toks ok_src) ok_alt ok_run ok_bs " { f(l, r, g, x) }".
Proof. apply (emits_at _ _ "E" 2); [isfine|vm_compute; reflexivity|destruct dbg; vm_compute; reflexivity]. Qed.
Lemma ok_good : good (slice ok_src) (fst ok_alt).
Proof.
  assert (E : fst ok_alt = [PSym (33, 34) false (Some (36, 37)) true; PSym (38, 41) false None false;
    PGroup [([PSym (43, 44) false (Some (46, 47)) true], (0, 0)); ([PSym (50, 53) false None false; PSym (54, 55) false (Some (57, 58)) true], (0, 0))] false (Some (60, 61)) false;
    PSym (62, 63) true (Some (65, 66)) false]) by (vm_compute; reflexivity).
  rewrite E. clear E. split.
  - repeat (apply Forall_cons; [try apply good_sym|]); [|apply Forall_nil]. apply good_group.
    + intros v [<-|[<-|[]]]; (split; [repeat constructor|]); simpl; repeat (constructor; simpl; try easy).
    + intros v n w e [<-|[<-|[]]] Hn Hr; simpl in Hn, Hr; destruct Hr as [[= <- <-]|[]]; vm_compute in Hn; destruct Hn as [<-|[]]; vm_compute; discriminate.
    + intros v v' s s' Hv Hv' Hs Hs' _. right. assert (Et : slice ok_src s = "r"%string) by (destruct Hv as [<-|[<-|[]]]; simpl in Hs; destruct Hs as [<-|[]]; vm_compute; reflexivity).
      rewrite Et. intros v'' [<-|[<-|[]]]; vm_compute; tauto.
    + intros b v w _ [<-|[<-|[]]] Hw; simpl in Hw; destruct Hw as [<-|[]]; reflexivity.
    + intros b v [= <-] [<-|[<-|[]]]; vm_compute; intros [H|[]]; discriminate.
  - unfold distinct. repeat (apply FOP_cons; [repeat (apply Forall_cons; [|]); try apply Forall_nil; intros n Hn Hn'; vm_compute in Hn; vm_compute in Hn'; intuition (subst; discriminate)|]). apply FOP_nil.
Qed.

(** a file whose aliases it gets wrong *)
Definition bad_alt : list pat * span := match nth_choice bad_src "S" 3 with Some (alt, _) => alt | None => ([], (0, 0)) end.
Lemma bad_emits dbg : exists bs, emits (slice bad_src) keep dbg (toks bad_src) bad_alt ([(7, 8)], []) bs " { x }" /\
  exists b, In b bs /\ bd_name b = "x"%string /\ run_binding [tt] b = Panic P_index.
Proof.
  eexists. split; [apply (emits_at _ _ "S" 3); [isfine|vm_compute; reflexivity|destruct dbg; vm_compute; reflexivity]|].
  eexists. split; [now left|]. split; reflexivity.
Qed.
Lemma bad_emits' dbg : exists bs, emits (slice bad_src) keep dbg (toks bad_src) bad_alt ([(7, 8); (15, 16)], []) bs " { x }" /\
  ~ binds_right (slice bad_src) (fst bad_alt) bs ([(7, 8); (15, 16)], []).
Proof.
  eexists. split; [apply (emits_at _ _ "S" 2); [isfine|vm_compute; reflexivity|destruct dbg; vm_compute; reflexivity]|].
  intros [_ H]. destruct (H "x"%string) as (b & Ef & Hr); [vm_compute; tauto|]. vm_compute in Ef. injection Ef as <-. specialize (Hr nat [0; 1] eq_refl ltac:(discriminate)). vm_compute in Hr. discriminate.
Qed.
(** a statement the compiler rejects *)
Lemma opt_emits dbg : exists alt r bs c, emits (slice opt_src) keep dbg (toks opt_src) alt r bs c /\ exists b, In b bs /\ stmt_type b = None /\
  binding_text b = ("let mut x = Some(toks[0].to_vec()); x = None; let x = x;" ++ String (ascii_of_nat 10) "")%string.
Proof.
  eexists _, _, _, _. split; [apply (emits_at _ _ "S" 1); [isfine|vm_compute; reflexivity|destruct dbg; vm_compute; reflexivity]|].
  eexists. split; [now left|]. split; reflexivity.
Qed.
(** two productions of one alternative in which a name has different types *)
Lemma alt_emits dbg : exists alt r bs r' bs' c, emits (slice alt_src) keep dbg (toks alt_src) alt r bs c /\ emits (slice alt_src) keep dbg (toks alt_src) alt r' bs' c /\
  map (fun b => (bd_name b, stmt_type b)) bs = [("x"%string, Some (TOption TItem))] /\ map (fun b => (bd_name b, stmt_type b)) bs' = [("x"%string, Some (TOption TRef))].
Proof.
  eexists _, _, _, _, _, _. split; [apply (emits_at _ _ "S" 0); [isfine|vm_compute; reflexivity|destruct dbg; vm_compute; reflexivity]|].
  split; [apply (emits_at _ _ "S" 1); [isfine|vm_compute; reflexivity|destruct dbg; vm_compute; reflexivity]|]. split; reflexivity.
Qed.
(** a plain alias *)
Lemma ref_emits dbg : exists r bs c, emits (slice ref_src) keep dbg (toks ref_src) ([PSym (7, 8) false (Some (9, 10)) false; PSym (11, 12) false (Some (14, 15)) true], (16, 25)) r bs c /\
  map (fun b => (bd_name b, stmt_type b)) bs = [("x"%string, Some TItem); ("y"%string, Some TItem)].
Proof.
  eexists _, _, _. split; [apply (emits_at _ _ "S" 0); [isfine|vm_compute; reflexivity|destruct dbg; vm_compute; reflexivity]|]. reflexivity.
Qed.
