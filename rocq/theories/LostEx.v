(** Lookaheads kept and lost (C132). *)
From Coq Require Import List Bool Arith String.
From Verif Require Import BTree Model Strings Base Spec SpecP GrammarP Interface LR Wrap Mono Final Check Export Examples Refute Refute2 Refute4 LR1Spec ValidSpec HandleF Pass PassB Textbook ValidEx PassEx LostSpec Lost.
Import ListNotations.
Local Open Scope string_scope.
Local Open Scope list_scope.

Lemma assign_keeps : keeps assign "Z" "$" (assign_t LALR).
Proof.
  destruct assign_facts as (W & Hg & Hm & He & _). destruct assign_looks as (H1 & H2 & _).
  destruct (lalr_exact _ _ _ _ _ W Hg _ (Hm LALR) He (or_introl eq_refl) (or_introl eq_refl) assign_productive) as [_ X].
  apply (lost_looks true _ _ _ _ W Hg _ (Hm LALR) He (or_introl eq_refl) (or_introl eq_refl) assign_productive).
  intros q qs xs P A i u x V. apply (proj1 X (conj H1 H2) _ _ _ P). exists (rev xs). split; auto. intros ? ? ? ?. reflexivity.
Qed.
Lemma assign_fresh : start_fresh assign "Z". Proof. facts. Qed.
Lemma assign_clean : conflicts (t_actions (assign_t LALR)) = []. Proof. check. Qed.
Lemma assign_pointer : sentence assign "Z" ["*"; "i"; "="; "i"] /\ validates (assign_t LALR) (to_tokens ["*"; "i"; "="; "i"]) true.
Proof.
  split; [split; [|facts]|exists 40; check].
  refine (chain_ok assign ltac:(facts) [["S"]; ["L"; "="; "R"]; ["*"; "R"; "="; "R"]; ["*"; "L"; "="; "R"]; ["*"; "i"; "="; "R"]; ["*"; "i"; "="; "L"]; ["*"; "i"; "="; "i"]] ["Z"] _). check.
Qed.

Lemma lost_productive : productive lost. Proof. apply (productive_ok lost ltac:(facts) ["B"; "A"; "S"; "Z"]); check. Qed.
Lemma lost_wf : wf_rules lost. Proof. facts. Qed.
Lemma lost_eof : term lost "$". Proof. facts. Qed.
Lemma lost_fresh : start_fresh lost "Z". Proof. facts. Qed.
Lemma lost_LR1 : LR1 lost "Z" "$".
Proof. exact (proj1 (clr_LR1 true "Z" "$" lost lost_g lost_wf (lost_gE true) _ (lost_makes CLR) lost_eof (or_introl eq_refl)) (lost_clean CLR)). Qed.
Lemma lost_not_kept : ~ keeps lost "Z" "$" (lost_t LALR).
Proof.
  intros K. apply (lost_exact true _ _ _ _ lost_wf (lost_gE true) _ (lost_makes LALR) lost_eof lost_fresh (or_introl eq_refl) (or_introl eq_refl) lost_productive (lost_clean LALR)) in K as [_ K].
  pose proof (K (to_tokens ["c"; "a"; "b"; "y"]) lost_sentence) as V. pose proof lost_rejects as V'.
  apply (validates_parses _ _ _ _ _ lost_wf (lost_gE true) _ _ _ _ (lost_makes LALR)) in V as (r & V & E), V' as (r' & V' & E').
  apply (parses_runs _ _ _ _ _ lost_wf (lost_gE true) _ _ _ (lost_makes LALR)) in V as (d & o & R & F), V' as (d' & o' & R' & F').
  pose proof (runs_fun _ _ _ R R') as X. injection X as <- <-. rewrite <- F' in F. rewrite F, <- E' in E. discriminate.
Qed.
