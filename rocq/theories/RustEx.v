(** A file whose out.rs can be read. *)
From Coq Require Import List Bool Arith Lia Ascii String Permutation.
From Verif Require Import BTree Model Strings Base Spec Wop WopSpec WopFront WopDump WopLex WopLexSpec WopText WopTextSpec WopRead WopMain WopRun WopEx WopEx2 RustSpec RustP RustItems RustRun RustFile.
Import ListNotations.
Local Open Scope string_scope.
Local Open Scope list_scope.
Local Open Scope nat_scope.

Definition balancedb (s : string) : bool := match closing 0 (s ++ "}") with Some (a, "") => String.eqb a s | _ => false end.
Definition clean_declb (text : span -> string) (d : decl) : bool :=
  match d with
  | DUse s => free (";"%char :: curly) (text s) && free [newline] (text s)
  | DRule name ty alts => free special (text name) && free curly (text ty) &&
      forallb (fun alt => (match code_body (text (snd alt)) with Val c => balancedb c | _ => true end) && forallb is_name (pipe_names text (fst alt))) alts
  | _ => true
  end.
Fixpoint plain_declsb (text : span -> string) (ds1 ds : list decl) : bool :=
  match ds with
  | [] => true
  | d :: ds' =>
      (match d with DRule _ _ alts => forallb (fun alt => forallb (forallb (fun s => free (newline :: ","%char :: " "%char :: "]"%char :: curly) (text (resolve text ds1 s)))) (expand (fst alt))) alts | _ => true end)
      && plain_declsb text (ds1 ++ [d]) ds'
  end.
Lemma balancedb_ok s : balancedb s = true -> balanced s.
Proof. unfold balancedb, balanced. destruct (closing 0 (s ++ "}")) as [[a [|]]|]; try discriminate. intros H. apply String.eqb_eq in H. now subst. Qed.
Lemma cleanb_ok text ds : forallb (clean_declb text) ds = true -> clean_file text ds.
Proof.
  intros H. rewrite forallb_forall in H. split.
  - intros s Hs. apply H in Hs. cbn in Hs. now apply andb_prop in Hs as [Hs _].
  - intros name ty alts Hd. apply H in Hd. cbn [clean_declb] in Hd. apply andb_prop in Hd as [Hd H3]. apply andb_prop in Hd as [H1 H2]. split; [exact H1|]. split; [exact H2|].
    intros pipe cb Ha. rewrite forallb_forall in H3. apply H3 in Ha. cbn [fst snd] in Ha. apply andb_prop in Ha as [Ha Hn]. split; [|now rewrite forallb_forall in Hn].
    intros c Hc. apply code_body_spec in Hc. rewrite Hc in Ha. now apply balancedb_ok.
Qed.
Lemma plainb_ok text ds : forallb (clean_declb text) ds = true -> plain_declsb text [] ds = true -> plain_file text ds.
Proof.
  intros Hu H. split.
  - intros s Hs. rewrite forallb_forall in Hu. apply Hu in Hs. cbn in Hs. now apply andb_prop in Hs as [_ Hs].
  - assert (G : forall ds p, plain_declsb text p ds = true -> forall ds1 name ty alts ds2 alt w s, ds = ds1 ++ DRule name ty alts :: ds2 -> In alt alts -> In w (expand (fst alt)) -> In s w ->
      free (newline :: ","%char :: " "%char :: "]"%char :: curly) (text (resolve text (p ++ ds1) s)) = true).
    { clear. intros ds p H ds1. revert ds p H. induction ds1 as [|d ds1 IH]; intros ds p H name ty alts ds2 alt w s -> Ha Hw Hs; cbn [app plain_declsb] in H; apply andb_prop in H as [H1 H2].
      - rewrite forallb_forall in H1. apply H1 in Ha. rewrite forallb_forall in Ha. apply Ha in Hw. rewrite forallb_forall in Hw. rewrite List.app_nil_r. auto.
      - specialize (IH _ _ H2 name ty alts ds2 alt w s eq_refl Ha Hw Hs). rewrite <- app_assoc in IH. exact IH. }
    intros ds1. apply (G ds [] H).
Qed.
Lemma ok_clean : clean_file (slice ok_src) (decls_of ok_src) /\ plain_file (slice ok_src) (decls_of ok_src).
Proof. split; [apply cleanb_ok|apply plainb_ok]; vm_compute; reflexivity. Qed.
Lemma ok_file : file_toks (toks ok_src) (decls_of ok_src) /\ valid (slice ok_src) (decls_of ok_src).
Proof.
  destruct (fine_facts ok_src true) as (H1 & _ & H3); [apply each_fine; simpl; tauto|]. split; [exact H3|]. destruct (WopExport.reads_file (slice ok_src) keep true keep_iterates (toks ok_src) (decls_of ok_src) (built_from true ok_src) H1 H3) as (Hv & _). exact Hv.
Qed.
Definition ok_fn : string := match read_source (written true ok_src) with Some [_; _; _; _; _; _; TFn _ _ code] =>
  match read_code ("{" ++ code ++ "}") with Some (l, _, _) => match defined "lrp_wop_E_2" l with [(_, b)] => b | _ => "" end | None => "" end | _ => "" end.
