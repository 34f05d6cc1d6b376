(** Examples and counterexamples beside C88 - C91. *)
From Coq Require Import List Bool Arith String Lia.
From Verif Require Import BTree Model Show Strings Grammars Base Spec SpecP GrammarP FirstFollow Closure ActTab LR Interface Wrap Total Final Check Export Examples Refute Refute2 LR1Spec Handle HandleF.
Import ListNotations.
Local Open Scope string_scope.
Local Open Scope list_scope.
Local Notation length := List.length.

(** ** C88 *)
Lemma calc_LR1 : LR1 calc "Z" "$".
Proof. apply (clr_clean_LR1 true "Z" "$" calc (calc_g true) calc_wf (calc_gE true) (tab CLR true 60 (calc_g true))); [apply (tab_makes CLR); check|facts|auto|check]. Qed.

Lemma hidden_not_LR1 : ~ LR1 hidden "Z" "$".
Proof.
  intros H. apply hidden_clr. apply (LR1_clr_clean true "Z" "$" hidden hidden_g ltac:(facts) (hidden_gE true) _ (hidden_makes CLR)); auto; [facts|].
  apply (productive_ok hidden ltac:(facts) ["B"; "A"; "S"; "Z"]); check.
Qed.

(** [Z -> S U; S -> a | a; U -> x U]: nothing is ever completed after [U], so no right sentential form
    rewrites [S]; the table has a conflict all the same *)
Definition dead := grammar_map [("Z", [["S"; "U"]]); ("S", [["a"]; ["a"]]); ("U", [["x"; "U"]])].
Definition dead_g := gof "Z" dead (calc_g true).

Lemma dead_prods A i rhs : prod_at dead A i rhs -> (A = "Z" /\ i = 0 /\ rhs = ["S"; "U"]) \/ (A = "S" /\ rhs = ["a"]) \/ (A = "U" /\ i = 0 /\ rhs = ["x"; "U"]).
Proof.
  intros H. apply (prods_in dead ltac:(facts)) in H. vm_compute in H. 
  repeat (destruct H as [[= <- <- <-]|H]; [auto|]). destruct H.
Qed.

Lemma dead_U : nonterm dead "U". Proof. apply nonterm_b_true. check. Qed.
Lemma dead_S : nonterm dead "S". Proof. apply nonterm_b_true. check. Qed.
Lemma dead_Z : nonterm dead "Z". Proof. apply nonterm_b_true. check. Qed.

Lemma snoc_inv {A} (a : list A) x w b y : a ++ x :: w = b ++ [y] -> (w = [] /\ a = b /\ x = y) \/ exists w', w = w' ++ [y].
Proof.
  destruct w as [|z w] using rev_ind; intros E.
  - apply app_inj_tail in E as [-> ->]. auto.
  - right. exists w. change (a ++ x :: w ++ [z]) with (a ++ (x :: w) ++ [z]) in E. rewrite app_assoc in E. apply app_inj_tail in E as [_ ->]. reflexivity.
Qed.

Lemma dead_forms u : rms dead ["Z"] u -> u = ["Z"] \/ exists n, u = ("S" :: repeat "x" n) ++ ["U"].
Proof.
  induction 1 as [|u v _ IH Hs]; auto. right. destruct Hs as [a A i rhs w Hp Tw].
  apply dead_prods in Hp. destruct IH as [E|(n & E)].
  - destruct a as [|y a]; [|destruct a; discriminate]. injection E as -> ->. exists 0.
    destruct Hp as [(_ & _ & ->)|[(E & _)|(E & _)]]; try discriminate. reflexivity.
  - apply snoc_inv in E as [(-> & -> & ->)|(w' & ->)].
    + destruct Hp as [(E & _)|[(E & _)|(_ & _ & ->)]]; try discriminate. exists (S n). cbn [app repeat]. f_equal.
      clear. induction n; cbn [app repeat]; [reflexivity|]. f_equal. exact IHn.
    + exfalso. apply Forall_app in Tw as [_ Tw]. apply Forall_inv in Tw. exact (Tw dead_U).
Qed.

Lemma dead_handles a A w i rhs : rms dead ["Z"] (a ++ A :: w) -> prod_at dead A i rhs -> Forall (term dead) w -> w = [] /\ i = 0 /\
  ((a = [] /\ A = "Z" /\ rhs = ["S"; "U"]) \/ exists n, a = "S" :: repeat "x" n /\ A = "U" /\ rhs = ["x"; "U"]).
Proof.
  intros H Hp Tw. apply dead_prods in Hp. apply dead_forms in H as [E|(n & E)].
  - destruct a as [|y a]; [|destruct a; discriminate]. injection E as -> ->.
    destruct Hp as [(_ & -> & ->)|[(E & _)|(E & _)]]; try discriminate. auto 6.
  - apply snoc_inv in E as [(-> & -> & ->)|(w' & ->)].
    + destruct Hp as [(E & _)|[(E & _)|(_ & -> & ->)]]; try discriminate. split; auto. split; auto. right. exists n. auto.
    + exfalso. apply Forall_app in Tw as [_ Tw]. apply Forall_inv in Tw. exact (Tw dead_U).
Qed.

Lemma repeat_inj {A} (x : A) n m : repeat x n = repeat x m -> n = m.
Proof. intros E. rewrite <- (repeat_length x n), <- (repeat_length x m). now rewrite E. Qed.

Lemma dead_LR1 : LR1 dead "Z" "$".
Proof.
  intros a A i rhs w b B j rhs' x y R1 P1 T1 R2 P2 T2 E Ty En.
  destruct (dead_handles _ _ _ _ _ R1 P1 T1) as (-> & -> & H1). destruct (dead_handles _ _ _ _ _ R2 P2 T2) as (-> & -> & H2).
  rewrite app_nil_r in E. cbn [next hd] in En.
  assert (exists b0, b ++ rhs' = b0 ++ ["U"]) as (b0 & Eb).
  { destruct H2 as [(-> & _ & ->)|(n & -> & _ & ->)]; [exists ["S"]; reflexivity|exists (("S" :: repeat "x" n) ++ ["x"]); now rewrite <- app_assoc]. }
  assert (y = []) as ->.
  { destruct y as [|y0 y] using rev_ind; auto. exfalso. clear IHy. rewrite Eb, !app_assoc in E. apply app_inj_tail in E as [_ <-].
    apply Forall_app in Ty as [_ Ty]. apply Forall_inv in Ty. exact (Ty dead_U). }
  rewrite app_nil_r in E. destruct H1 as [(-> & -> & ->)|(n & -> & -> & ->)]; destruct H2 as [(-> & -> & ->)|(m & -> & -> & ->)]; auto.
  - exfalso. apply (f_equal (@List.length string)) in E. rewrite ?app_length in E. cbn [List.length app] in E. rewrite ?app_length, ?repeat_length in E. cbn [List.length] in E. lia.
  - exfalso. apply (f_equal (@List.length string)) in E. rewrite ?app_length in E. cbn [List.length app] in E. rewrite ?app_length, ?repeat_length in E. cbn [List.length] in E. lia.
  - apply app_inv_tail in E. injection E as E. apply repeat_inj in E. subst. auto.
Qed.

Lemma dead_facts : wf_rules dead /\ grammar_new true "Z" dead "$" = Val dead_g /\ makes CLR true dead_g (tab CLR true 60 dead_g) /\ term dead "$" /\
  LR1 dead "Z" "$" /\ conflicts (t_actions (tab CLR true 60 dead_g)) <> [].
Proof. split; [facts|]. split; [check|]. split; [apply (tab_makes CLR); check|]. split; [facts|]. split; [apply dead_LR1|apply nonempty; check]. Qed.

(** ** C89 *)
Lemma calc_SLR1 : SLR1 calc "Z" "$".
Proof. apply (slr_clean_SLR1 true "Z" "$" calc (calc_g true) calc_wf (calc_gE true) (tab SLR true 60 (calc_g true))); [apply (tab_makes SLR); check|facts|auto|check]. Qed.

Lemma assign_not_SLR1 : ~ SLR1 assign "Z" "$".
Proof.
  destruct assign_facts as (W & Hg & Hm & He & _ & _ & Hc). intros H. apply Hc.
  apply (SLR1_slr_clean true "Z" "$" assign assign_g W Hg _ (Hm SLR) He); auto.
  apply (productive_ok assign W ["L"; "R"; "S"; "Z"]); check.
Qed.

(** ** C90 *)
Lemma assign_LALR1 : LALR1 assign "Z" "$".
Proof.
  destruct assign_facts as (W & Hg & Hm & He & Hk & Hc & _).
  apply (lalr_clean_LALR1 true "Z" "$" assign assign_g W Hg _ (Hm LALR) Hk He); auto.
  apply (productive_ok assign W ["L"; "R"; "S"; "Z"]); check.
Qed.

Lemma hidden_not_LALR1 : ~ LALR1 hidden "Z" "$".
Proof.
  intros H. apply hidden_clr. apply (LALR1_clr_clean true "Z" "$" hidden hidden_g ltac:(facts) (hidden_gE true) _ (hidden_makes CLR)); auto; [facts|].
  apply (productive_ok hidden ltac:(facts) ["B"; "A"; "S"; "Z"]); check.
Qed.

(** After [x a] and after [w w w a] the same items are possible: [A -> a . s], [D -> a . s], [C -> a . B],
    [B -> . s g].  When the second is merged into the first, [update_closures] (lalr.rs:150-182) passes
    the new lookaheads on from the kernel alone, without [B -> . s g]; so they go to the state after
    [y a s], where only [A -> a s .] and [D -> a s .] are possible. *)
Definition spur := grammar_map [("Z", [["S"]]);
  ("S", [["x"; "A"; "c"]; ["x"; "D"; "f"]; ["x"; "C"]; ["w"; "w"; "w"; "A"; "e"]; ["w"; "w"; "w"; "D"; "f"]; ["w"; "w"; "w"; "C"]; ["y"; "A"; "d"]; ["y"; "D"; "c"]]);
  ("A", [["a"; "s"]]); ("D", [["a"; "s"]]); ("C", [["a"; "B"]]); ("B", [["s"; "g"]])].
Definition spur_g := gof "Z" spur (calc_g true).
Lemma spur_productive : productive spur.
Proof. apply (productive_ok spur ltac:(facts) ["A"; "D"; "B"; "C"; "S"; "Z"]). check. Qed.
Lemma spur_makes k : makes k true spur_g (tab k true 100 spur_g). Proof. apply tab_makes. destruct k; check. Qed.

Lemma spur_LALR1 : LALR1 spur "Z" "$".
Proof.
  apply (clr_merge_LALR1 true "Z" "$" spur spur_g ltac:(facts) ltac:(check) _ (spur_makes CLR)); auto; [facts|apply spur_productive|].
  apply merge_b_ok. check.
Qed.

Lemma spur_refutes : exists (rules : rulemap string) (start eof : string) (g : grammar string) (t : tabler string),
  wf_rules rules /\ grammar_new true start rules eof = Val g /\ makes LALR true g t /\ term rules eof /\ start_fresh rules start /\
  productive rules /\ reachable rules start /\ LALR1 rules start eof /\ conflicts (t_actions t) <> [].
Proof.
  exists spur, "Z", "$", spur_g, (tab LALR true 100 spur_g). split; [facts|]. split; [check|]. split; [apply spur_makes|]. split; [facts|]. split; [facts|].
  split; [apply spur_productive|]. split; [apply (reachable_ok spur ltac:(facts) "Z" ["Z"; "S"; "A"; "D"; "C"; "B"]); check|].
  split; [apply spur_LALR1|apply nonempty; check].
Qed.

Lemma hidden_LALR1_refutes : exists (rules : rulemap string) (start eof : string) (g : grammar string) (t : tabler string),
  wf_rules rules /\ grammar_new true start rules eof = Val g /\ makes LALR true g t /\ term rules eof /\ start_fresh rules start /\
  productive rules /\ conflicts (t_actions t) = [] /\ ~ LALR1 rules start eof.
Proof.
  exists hidden, "Z", "$", hidden_g, (tab LALR true 60 hidden_g). split; [facts|]. split; [apply hidden_gE|]. split; [apply hidden_makes|]. split; [facts|]. split; [facts|].
  split; [apply (productive_ok hidden ltac:(facts) ["B"; "A"; "S"; "Z"]); check|]. split; [apply hidden_lalr|apply hidden_not_LALR1].
Qed.

(** ** C91, C92 *)
Definition seqs := grammar_map [("Z", [["L"]]); ("L", [["L"; "x"]; ["("; ")"]])].
Definition seqs_g := gof "Z" seqs (calc_g true).
Definition seqs_t := tab CLR true 60 seqs_g.
Lemma seqs_facts : wf_rules seqs /\ grammar_new true "Z" seqs "$" = Val seqs_g /\ makes CLR true seqs_g seqs_t /\ length (t_states seqs_t) = 5 /\ makes LALR true seqs_g seqs_t.
Proof.
  split; [facts|]. split; [check|]. split; [apply (tab_makes CLR); check|]. split; [check|].
  assert (tab LALR true 60 seqs_g = seqs_t) as <- by check. apply (tab_makes LALR). check.
Qed.

Lemma calc_states : length (t_states (calc_tab SLR)) = 9 /\ length (t_states (calc_tab LALR)) = 9 /\ length (t_states (calc_tab CLR)) = 16.
Proof. repeat split; check. Qed.

Lemma rec2_states : exists (rules : rulemap string) (start eof : string) (g : grammar string) (tl ts : tabler string),
  wf_rules rules /\ grammar_new true start rules eof = Val g /\ makes LALR true g tl /\ makes SLR true g ts /\ term rules eof /\
  productive rules /\ reachable rules start /\ length (t_states tl) < length (t_states ts).
Proof.
  exists rec2, "S", "$", rec2_g, (rec2_t LALR), (rec2_t SLR). split; [facts|]. split; [apply rec2_gE|]. split; [apply rec2_makes|]. split; [apply rec2_makes|]. split; [facts|].
  split; [apply (productive_ok rec2 ltac:(facts) ["A"; "S"]); check|]. split; [apply (reachable_ok rec2 ltac:(facts) "S" ["S"; "A"]); check|].
  apply Nat.ltb_lt. check.
Qed.

Lemma rec2_sizes : List.length (t_states (rec2_t SLR)) = 7 /\ List.length (t_states (rec2_t LALR)) = 6.
Proof. split; check. Qed.
