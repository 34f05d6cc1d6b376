(** wop's [main] on source texts, and what it writes. *)
From Coq Require Import List Bool Arith Lia String Permutation.
From Verif Require Import BTree Model Strings Wop WopSpec WopP WopProc WopDump WopFront Spec Base Mono WopParse WopExport WopLex WopLexSpec WopLexP WopStr WopText WopTextSpec WopTextP WopMain.
Import ListNotations.
Local Open Scope list_scope.

Lemma enum_in {A} (l : list A) : forall i x, In x (enum i l) -> In (snd x) l.
Proof. induction l as [|a l IH]; intros i x H; [easy|]. destruct H as [<-|H]; [now left|right; eauto]. Qed.
Lemma write_out_total text b rs rules : dump_reductor text b = Val rs -> Permutation rules (b_rules b) -> exists s, write_out text b rules = Val s.
Proof.
  intros E P. unfold write_out, dump_reductor_text. change (String.eqb "Gramem" "") with false. cbv iota.
  assert (exists l, mapM (fun e => write_rule_reduction text "Gramem" (fst e) (snd e)) rules = Val l) as (l & ->); [|eexists; reflexivity].
  apply mapM_total. intros [n prods] Hin. apply (Permutation_in _ P) in Hin. unfold dump_reductor in E.
  apply mapM_val in E. destruct (Forall2_in_l_ex _ _ _ _ E Hin) as (y & _ & Ey). apply bind_val in Ey as (fs & Ef & _). unfold dump_reductors in Ef. cbn [fst snd] in *.
  apply bind_val in Ef as (p0 & E0 & Ef). unfold write_rule_reduction. rewrite E0. cbn [bind]. apply mapM_val in Ef.
  assert (exists l, mapM (fun x => write_reductor text "Gramem" n (text (pb_ty p0)) (fst x) (snd x)) (enum 0 prods) = Val l) as (l & ->); [|eexists; reflexivity].
  apply mapM_total. intros x Hx. apply enum_in in Hx. destruct (Forall2_in_l_ex _ _ _ _ Ef Hx) as (z & _ & Ez). apply bind_val in Ez as (c & Ec & _). unfold write_reductor. rewrite Ec. eexists. reflexivity.
Qed.

Section S.
Variable lg : logos.
Variable order : prod_build -> list prod_build -> list span -> list span.
Hypothesis Ho : iterates order.
Variable iter : list (string * list prod_build) -> list (string * list prod_build).
Hypothesis Hi : forall l, Permutation (iter l) l.
Variable dbg : bool.

Lemma dumps_total src ts ds b : incl ts (tokenize lg src) -> reads (slice src) order dbg ts (Val (inl b)) -> file_toks ts ds -> exists rs, dump_reductor (slice src) b = Val rs.
Proof.
  intros Hin Hb Hf. destruct (reads_file (slice src) order dbg Ho _ _ _ Hb Hf) as (Hv & (_ & _ & Hn & Hd) & Hs).
  apply dump_reductor_total; auto. intros name prods Hg. assert (Hnm : In name (rule_names (slice src) ds)) by (apply Hn; eauto).
  unfold rule_names in Hnm. apply in_flat_map in Hnm as ([nm ty alts|u|tk al] & Hid & Hnm); try easy. destruct Hnm as [<-|[]].
  apply in_split in Hid as (ds1 & ds2 & Eds). destruct (Hd _ _ _ _ _ Eds) as (prods' & Hg' & Hbu & _). rewrite Hg in Hg'. injection Hg' as <-.
  assert (Hid : In (DRule nm ty alts) ds) by (rewrite Eds; apply in_elt). destruct (file_good _ _ Hf _ _ _ Hid) as [Hne Hgd]. split.
  - intros ->. apply Forall2_len in Hbu. symmetry in Hbu. apply length_zero_iff_nil in Hbu as E0. destruct alts as [|v vs]; [easy|]. simpl in E0. apply app_eq_nil in E0 as [E0 _]. apply map_eq_nil in E0. now apply (proj1 (Hgd v (or_introl eq_refl))).
  - intros p Hp. destruct (Forall2_in_l_ex _ _ _ _ Hbu Hp) as ([alt w] & Hx & _ & Ec & _). apply in_flat_map in Hx as (alt' & Ha & Hx). apply in_map_iff in Hx as (w' & [= -> _] & _).
    simpl in Ec. rewrite Ec. destruct alt as [pipe cb]. simpl. destruct (Hgd _ Ha) as [_ [E0|Hc]].
    + simpl in E0. subst cb. destruct Hv as (_ & _ & H3). destruct (H3 _ _ _ _ _ Hid Ha) as [H4 _]. destruct H4. unfold slice. simpl. now destruct src.
    + destruct (code_of lg src cb (Hin _ Hc)) as (c & Hcode). exists (c ++ "}")%string. rewrite Hcode. simpl. now rewrite sassoc.
Qed.

(** [main] reading the source text [src] ends as [r] *)
Definition runs_main (src : string) (r : res (outcome sym * string)) : Prop :=
  exists F, forall fuel, F <= fuel -> wop_main (slice src) order iter dbg fuel (map (fun t => lexed (fst t) (snd t)) (tokenize lg src)) = r.

Theorem runs_main_cases src :
  (exists ds b s, file_toks (tokenize lg src) ds /\ valid (slice src) ds /\ reads (slice src) order dbg (tokenize lg src) (Val (inl b)) /\
     write_out (slice src) b (iter (b_rules b)) = Val s /\ runs_main src (Val (Ok, s))) \/
  (exists ds, file_toks (tokenize lg src) ds /\ ~ valid (slice src) ds /\ runs_main src (Panic P_assert)) \/
  ((forall ds, ~ file_toks (tokenize lg src) ds) /\ exists e, reads (slice src) order dbg (tokenize lg src) (Val (inr e)) /\
   ((exists p, (p = P_index \/ p = P_unlisted \/ p = P_assert) /\ runs_main src (Panic p)) \/
    exists ts1 ts2 ds b s, tokenize lg src = ts1 ++ ts2 /\ file_toks ts1 ds /\ valid (slice src) ds /\ reads (slice src) order dbg ts1 (Val (inl b)) /\
      write_out (slice src) b (iter (b_rules b)) = Val s /\ runs_main src (Val (Err e, s)))).
Proof.
  assert (Ht : Forall (fun x => term rules (fst x)) (tokenize lg src)) by (eapply lexed_terms, tokenize_lexes).
  destruct (reads_decides (slice src) order dbg Ho _ Ht) as [(ds & Hf & [[Hv _]|[Hv _]])|[Hn _]].
  - left. destruct (main_file (slice src) order iter dbg Ho _ ds Hf) as [H _]. destruct (H Hv) as (b & Hb & F & E).
    destruct (dumps_total src _ ds b (incl_refl _) Hb Hf) as (rs & Ers). destruct (write_out_total _ _ _ _ Ers (Hi (b_rules b))) as (s & Es).
    exists ds, b, s. repeat (split; auto). exists F. intros fuel L. unfold lex in E. rewrite (E fuel L), Es. reflexivity.
  - right. left. destruct (main_file (slice src) order iter dbg Ho _ ds Hf) as [_ H]. destruct (H Hv) as (F & E). exists ds. repeat (split; auto). exists F. exact E.
  - right. right. split; auto. destruct (main_error (slice src) order iter dbg Ho _ Ht Hn) as (e & He & H). exists e. split; auto.
    destruct H as [(p & Hp & F & E)|(ts1 & ts2 & ds & b & Ets & Hf & Hv & Hb & F & E)].
    + left. exists p. split; auto. exists F. exact E.
    + right. destruct (dumps_total src ts1 ds b) as (rs & Ers); auto. { intros x Hx. rewrite Ets. apply in_or_app. now left. }
      destruct (write_out_total _ _ _ _ Ers (Hi (b_rules b))) as (s & Es).
      exists ts1, ts2, ds, b, s. repeat (split; auto). exists F. intros fuel L. unfold lex in E. rewrite (E fuel L), Es. reflexivity.
Qed.
End S.
