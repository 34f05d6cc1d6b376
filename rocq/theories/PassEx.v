(** Lookaheads of Lalr: the grammars of the repository, and two on which it goes wrong (C123). *)
From Coq Require Import List Bool Arith String.
From Verif Require Import BTree Model Strings Grammars Wop Base Spec SpecP GrammarP Interface Wrap Mono Final Check Export Bundled Examples Refute Refute2 Refute4 LR1Spec ValidSpec Pass PassB Textbook ValidEx.
Import ListNotations.

Section Exact.
Context {T : Type} {OT : Ord T}.
Variables (start eof : T) (l : list (T * list (list T))).
Notation rules := (grammar_map l).

Definition looks_b (n r m : nat) (order : list T) : bool :=
  match built start eof l LALR n with
  | Val (g, t) => if carries_b t then grounded_b rules start eof t r m else false
  | _ => false
  end && productive_b rules order && negb (nonterm_b rules eof).

Lemma looks_ok n r m order : looks_b n r m order = true -> exact_looks start eof rules.
Proof.
  unfold looks_b. intros H. apply andb_prop in H as [H He]. apply andb_prop in H as [H Hp]. pose proof (grammar_map_wf l) as W.
  apply negb_true_iff, nonterm_b_false in He. apply (productive_ok _ W) in Hp.
  destruct (built start eof l LALR n) as [[g t]| |] eqn:E; [|discriminate..]. destruct (carries_b t) eqn:Hc; [|discriminate].
  unfold built in E. apply bind_val in E as (g0 & Hg & E).
  assert (g0 = g /\ makes LALR true g t) as [-> Hm].
  { apply bind_val in E as ([t0 p] & E1 & E). injection E as -> ->. split; auto. exists n, p. auto. }
  destruct (debug_release _ _ _ _ Hg) as (Hg' & _ & Hd). pose proof (Hd _ _ Hm) as Hm'.
  intros dbg. exists g, t. split; [destruct dbg; auto|]. split; [destruct dbg; auto|].
  apply (proj2 (lalr_exact _ _ _ _ _ W Hg _ Hm He (or_introl eq_refl) (or_introl eq_refl) Hp)). split.
  - eapply carries_hands_on; eauto. now apply carries_ok.
  - eapply grounded_ok; eauto.
Qed.
End Exact.

Local Open Scope string_scope.
Local Open Scope list_scope.
Lemma bundled_looks : exact_looks "S" "$" (grammar_map dragon_book_rules) /\ exact_looks "Start" "$" (grammar_map serokell_rules) /\ exact_looks "S" "$" (grammar_map ucalgary_uni_oth_lr1_rules) /\
  exact_looks "S" "$" (grammar_map wikipedia_rules) /\ exact_looks "S'" "$" (grammar_map puncs_rules) /\ exact_looks "S" "$" (grammar_map scanner_rules).
Proof.
  split; [apply looks_ok with 60 60 8 ["C"; "S"]; check|]. split; [apply looks_ok with 80 60 8 ["Term"; "Factor"; "Add"; "Start"]; check|].
  split; [apply looks_ok with 80 60 8 ["A"; "B"; "C"; "D"; "F"; "E"; "S"]; check|]. split; [apply looks_ok with 60 60 8 ["B"; "E"; "S"]; check|].
  split; [apply looks_ok with 80 60 8 ["S"; "S'"]; check|]. apply looks_ok with 300 60 8 ["Space"; "Digit"; "Alpha"; "Num"; "Word"; "Item"; "Phrase"; "S"]. check.
Qed.
Lemma wop_looks : exact_looks EntryPoint Eof (grammar_map wop_rules).
Proof. apply looks_ok with 400 60 8 [IdentPath; RuleItem; RulePipe; Import; Alias; Rule; RuleDecl; Program; EntryPoint]. check. Qed.
Lemma repo_looks : exact_looks "S" "$" (grammar_map dragon_book_rules) /\ exact_looks "Start" "$" (grammar_map serokell_rules) /\
  exact_looks "S" "$" (grammar_map ucalgary_uni_oth_lr1_rules) /\ exact_looks "S" "$" (grammar_map wikipedia_rules) /\ exact_looks "S'" "$" (grammar_map puncs_rules) /\
  exact_looks "S" "$" (grammar_map scanner_rules) /\ exact_looks EntryPoint Eof (grammar_map wop_rules).
Proof. destruct bundled_looks as (H1 & H2 & H3 & H4 & H5 & H6). exact (conj H1 (conj H2 (conj H3 (conj H4 (conj H5 (conj H6 wop_looks)))))). Qed.

(** ** Where Lalr goes wrong: a lookahead lost on the way, and lookaheads handed to a state they do not belong to *)
Lemma hidden_looks : grounded hidden "Z" "$" (tab LALR true 60 hidden_g) /\ ~ hands_on (tab LALR true 60 hidden_g).
Proof.
  assert (grounded hidden "Z" "$" (tab LALR true 60 hidden_g)) as H1 by (apply (grounded_ok hidden "Z" "$" _ ltac:(facts) 20 8); check). split; auto.
  intros H2. apply hidden_not_LALR1.
  refine (proj1 (lalr_iff_LALR1 true "Z" "$" hidden hidden_g ltac:(facts) (hidden_gE true) _ (hidden_makes LALR) (conj H2 H1) _ (or_introl eq_refl) (or_introl eq_refl) _) _); [facts| |apply hidden_lalr].
  apply (productive_ok hidden ltac:(facts) ["B"; "A"; "S"; "Z"]); check.
Qed.

Definition spur_t := tab LALR true 100 spur_g.
Lemma spur_loose : ~ (hands_on spur_t /\ grounded spur "Z" "$" spur_t).
Proof.
  intros H. assert (conflicts (t_actions spur_t) <> []) as N by (apply nonempty; check). apply N.
  assert (wf_rules spur) as W by facts. assert (grammar_new true "Z" spur "$" = Val spur_g) as Hg by check. assert (term spur "$") as He by facts.
  pose proof (lalr_iff_LALR1 true "Z" "$" spur spur_g W Hg spur_t (spur_makes LALR) H He (or_introl eq_refl) (or_introl eq_refl) spur_productive) as Q.
  apply Q. exact spur_LALR1.
Qed.

Lemma inexact : exists (rules rules' : rulemap string) (start eof : string) (g g' : grammar string) (t t' : tabler string),
  (wf_rules rules /\ grammar_new true start rules eof = Val g /\ makes LALR true g t /\ term rules eof /\ productive rules /\
   grounded rules start eof t /\ ~ hands_on t /\ conflicts (t_actions t) = [] /\ ~ LALR1 rules start eof) /\
  (wf_rules rules' /\ grammar_new true start rules' eof = Val g' /\ makes LALR true g' t' /\ term rules' eof /\ productive rules' /\
   ~ (hands_on t' /\ grounded rules' start eof t') /\ conflicts (t_actions t') <> [] /\ LALR1 rules' start eof).
Proof.
  exists hidden, spur, "Z", "$", hidden_g, spur_g, (tab LALR true 60 hidden_g), spur_t. split.
  - split; [facts|]. split; [apply hidden_gE|]. split; [apply hidden_makes|]. split; [facts|].
    split; [apply (productive_ok hidden ltac:(facts) ["B"; "A"; "S"; "Z"]); check|]. split; [apply hidden_looks|]. split; [apply hidden_looks|].
    split; [apply hidden_lalr|apply hidden_not_LALR1].
  - split; [facts|]. split; [check|]. split; [apply spur_makes|]. split; [facts|]. split; [apply spur_productive|]. split; [apply spur_loose|].
    split; [apply nonempty; check|apply spur_LALR1].
Qed.

Lemma assign_looks : hands_on (assign_t LALR) /\ grounded assign "Z" "$" (assign_t LALR) /\ item_look (assign_t LALR) 2 "R" 0 ["L"] [] "$" /\ ~ item_look (assign_t LALR) 2 "R" 0 ["L"] [] "=".
Proof.
  destruct assign_differ as (_ & H1 & H2 & _). split; auto. split; auto. split.
  - eexists. exists (mkPos "R" (["L"], 0) 1 ["$"]). split; [vm_compute; reflexivity|]. split; [simpl; auto|]. cbn. auto.
  - intros (row & pos & E & Hin & E1 & E2 & E3 & Hx). vm_compute in E. injection E as <-.
    repeat (destruct Hin as [<-|Hin]; [cbn in E1, E2, E3, Hx; try discriminate; repeat (destruct Hx as [Hx|Hx]; [discriminate|]); contradiction|]). contradiction.
Qed.
