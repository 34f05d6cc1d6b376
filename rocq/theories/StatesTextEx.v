(** Concrete cases for C129 *)
From Coq Require Import List Bool Arith Ascii String.
From Verif Require Import BTree Model Show Strings Trace Spec SpecP Interface Check Examples Refute Refute2 Text TextSpec TextP TextF TextEx StatesText.
Import ListNotations.
Local Open Scope string_scope.
Local Open Scope list_scope.
Local Notation length := List.length.

Lemma calc_slr_builds : builds SLR true (calc_g true) (calc_tab SLR) None.
Proof. split; [reflexivity|]. exact (calc_makes SLR). Qed.
Lemma decimal_legible : legible decimal.
Proof.
  split.
  - intros x y s t Hs Ht E. assert (N : forall u, stops u -> no_digit u).
    { intros [|c u]; cbn; auto. intros [<-|[<-|[<-|[<-|[<-|[]]]]]]; reflexivity. }
    apply decimal_read in E as (-> & _); auto.
  - intros x. pose proof (decimal_digits x) as D. pose proof (decimal_nonempty x) as NE. destruct (decimal x) as [|c u]; [now destruct NE|].
    cbn in D. apply andb_true_iff in D as (D & _). intros H. destruct H as [<-|[<-|[<-|[<-|[<-|[]]]]]]; discriminate.
Qed.
Lemma calc_states_text : exists rows, states_text str_debug (fun s => s) None (calc_tab SLR) = Val rows /\ length rows = 15 /\
  map (fun r => (nth 0 r "", nth 2 r "")) (firstn 4 rows) = [("last state: 8", "0"); ("goto(0, ()", "1"); ("goto(0, E)", "2"); ("goto(0, T)", "3")] /\
  nth 1 (nth 2 rows []) "" = "{""E"" = ""E"" . ""+"" ""T""  {}, ""Z"" = ""E"" .  {""$""}}".
Proof. eexists. split; [vm_compute; reflexivity|]. repeat split. Qed.
Lemma calc_tokens_text : tokens_text str_debug (fun s => s) (calc_tab SLR) =
  [["E"; "{""("", ""n""}"; "{""$"", "")"", ""+""}"]; ["T"; "{""("", ""n""}"; "{""$"", "")"", ""+""}"]; ["Z"; "{""("", ""n""}"; "{""$""}"]].
Proof. check. Qed.
Lemma calc_stack_text : exists d, reaches (calc_tab SLR) calc_input calc_maps d /\ Forall (term calc) (map tk_ty calc_input) /\
  stack_debug str_debug decimal d = "0 Token { item: 1, ty: ""E"" } 2 Token { item: 0, ty: ""+"" } 6".
Proof.
  destruct (calc_reaches SLR) as (d & R & F & _). exists (calc_conf SLR 4). split; [|split; [exact F|check]]. clear.
  eapply reaches_round with (d := calc_conf SLR 3); [|split; [|exists 5]; check].
  eapply reaches_round with (d := calc_conf SLR 2); [|split; [|exists 5]; check].
  eapply reaches_round with (d := calc_conf SLR 1); [|split; [|exists 5]; check].
  eapply reaches_round with (d := calc_conf SLR 0); [|split; [|exists 5]; check].
  apply reaches_start. check.
Qed.
