(** The example of /repo/wop/README.md. *)
From Coq Require Import List Bool Arith Lia Ascii String Permutation.
From Verif Require Import BTree Model Strings Wop WopSpec WopFront WopP WopRead WopLex WopText WopEx Spec SpecP Base GrammarP Check.
Import ListNotations.
Local Open Scope string_scope.
Local Open Scope list_scope.
Local Open Scope nat_scope.

(** /repo/wop/README.md:6-31 *)
Definition readme_src : string := "use my_crate::Ast;
use my_crate::Sym::*; // Each module should be imported separetely (there's no { } support yet)

// you can define alias for idents and string literals
alias Number = Number;
alias ""+"" = Add;
alias ""("" = OpenParen;
alias "")"" = CloseParen;

Add: Ast = Number:&n1 ""+"" Number:&n2 -> {
    Ast::Add(n1, n2)
}%;

Expr: Ast = Add:&a -> {
/* Meta::new( */
    Ast::Expr(a)/*,
    Span::new(toks[0].item.span.start, toks.last().unwrap().item.span.end)
)*/
}%
    | ""("" Expr:&e "")"" -> {
    Ast::Expr(e)
}%;

EntryPoint: Ast = Expr:&e -> {
    Ast::EntryPoint(e)
}%
".
(** the same with the syntax of aliases corrected and the missing semicolon added *)
Definition readme_fixed : string := "use my_crate::Ast;
use my_crate::Sym::*; // Each module should be imported separetely (there's no { } support yet)

// you can define alias for idents and string literals
alias Number Number;
alias ""+"" Add;
alias ""("" OpenParen;
alias "")"" CloseParen;

Add: Ast = Number:&n1 ""+"" Number:&n2 -> {
    Ast::Add(n1, n2)
}%;

Expr: Ast = Add:&a -> {
/* Meta::new( */
    Ast::Expr(a)/*,
    Span::new(toks[0].item.span.start, toks.last().unwrap().item.span.end)
)*/
}%
    | ""("" Expr:&e "")"" -> {
    Ast::Expr(e)
}%;

EntryPoint: Ast = Expr:&e -> {
    Ast::EntryPoint(e)
}%;
".
(** and with the token called [Plus], as [Add] is a rule *)
Definition readme_plus : string := "use my_crate::Ast;
use my_crate::Sym::*; // Each module should be imported separetely (there's no { } support yet)

// you can define alias for idents and string literals
alias Number Number;
alias ""+"" Plus;
alias ""("" OpenParen;
alias "")"" CloseParen;

Add: Ast = Number:&n1 ""+"" Number:&n2 -> {
    Ast::Add(n1, n2)
}%;

Expr: Ast = Add:&a -> {
/* Meta::new( */
    Ast::Expr(a)/*,
    Span::new(toks[0].item.span.start, toks.last().unwrap().item.span.end)
)*/
}%
    | ""("" Expr:&e "")"" -> {
    Ast::Expr(e)
}%;

EntryPoint: Ast = Expr:&e -> {
    Ast::EntryPoint(e)
}%;
".

Lemma readme_rejected dbg : from_str one keep dbg 400 readme_src = Val (inr (UnexpectedToken Assign [Ident; IdentPath])).
Proof. destruct dbg; vm_compute; reflexivity. Qed.
Lemma readme_reads dbg : reads (slice readme_src) keep dbg (toks readme_src) (Val (inr (UnexpectedToken Assign [Ident; IdentPath]))).
Proof. apply (reads_run _ _ _ 400); [apply readme_rejected|discriminate]. Qed.
Lemma fixed_fine : fine readme_fixed = true.
Proof. vm_compute. reflexivity. Qed.
Lemma plus_fine : fine readme_plus = true.
Proof. vm_compute. reflexivity. Qed.

Definition fixed_rules : rulemap string := grammar_map [("Add", [["Number"; "Add"; "Number"]]); ("EntryPoint", [["Expr"]]); ("Expr", [["Add"]; ["OpenParen"; "Expr"; "CloseParen"]])].
Definition plus_rules : rulemap string := grammar_map [("Add", [["Number"; "Plus"; "Number"]]); ("EntryPoint", [["Expr"]]); ("Expr", [["Add"]; ["OpenParen"; "Expr"; "CloseParen"]])].
Lemma fixed_dump dbg : grammar_map (dump_grammar (slice readme_fixed) (built_from dbg readme_fixed)) = fixed_rules.
Proof. destruct dbg; vm_compute; reflexivity. Qed.
Lemma plus_dump dbg : grammar_map (dump_grammar (slice readme_plus) (built_from dbg readme_plus)) = plus_rules.
Proof. destruct dbg; vm_compute; reflexivity. Qed.

Lemma fixed_prods A i rhs : prod_at fixed_rules A i rhs -> exists X, In X rhs /\ In X ["Add"; "EntryPoint"; "Expr"].
Proof.
  intros H. apply (prods_in fixed_rules (grammar_map_wf _)) in H. vm_compute in H. repeat (destruct H as [H|H]; [injection H as <- <- <-; first [exists "Add"; simpl; tauto|exists "Expr"; simpl; tauto]|]). easy.
Qed.
Lemma fixed_stuck u v : derives fixed_rules u v -> (exists X, In X u /\ In X ["Add"; "EntryPoint"; "Expr"]) -> exists X, In X v /\ In X ["Add"; "EntryPoint"; "Expr"].
Proof.
  induction 1 as [|u v w Hr _ IH]; auto. intros H. apply IH. destruct Hr as [a A b i rhs Hp]. destruct (fixed_prods _ _ _ Hp) as (X & HX & HN). exists X. split; auto. apply in_or_app. right. apply in_or_app. now left.
Qed.
Lemma fixed_empty w : ~ sentence fixed_rules "EntryPoint" w.
Proof.
  intros [D T]. destruct (fixed_stuck _ _ D) as (X & HX & HN); [exists "EntryPoint"; simpl; tauto|]. rewrite Forall_forall in T. apply (T X HX).
  simpl in HN. destruct HN as [<-|[<-|[<-|[]]]]; apply nonterm_b_true; vm_compute; reflexivity.
Qed.

Lemma plus_prods A i rhs : prod_at plus_rules A i rhs -> (A = "Add" /\ rhs = ["Number"; "Plus"; "Number"]) \/ (A = "EntryPoint" /\ rhs = ["Expr"]) \/ (A = "Expr" /\ (rhs = ["Add"] \/ rhs = ["OpenParen"; "Expr"; "CloseParen"])).
Proof.
  intros H. apply (prods_in plus_rules (grammar_map_wf _)) in H. vm_compute in H. repeat (destruct H as [H|H]; [injection H as <- <- <-; tauto|]). easy.
Qed.
Definition nest (n : nat) (m : list string) : list string := repeat "OpenParen" n ++ m ++ repeat "CloseParen" n.
Definition token (x : string) : Prop := In x ["Number"; "Plus"; "OpenParen"; "CloseParen"].
Lemma token_term x : token x -> term plus_rules x.
Proof. intros H. apply nonterm_b_false. simpl in H. repeat (destruct H as [<-|H]; [vm_compute; reflexivity|]). easy. Qed.
Lemma parens_term n : Forall (term plus_rules) (repeat "OpenParen" n) /\ Forall (term plus_rules) (repeat "CloseParen" n).
Proof. split; apply Forall_forall; intros x Hx; apply repeat_spec in Hx; subst; apply token_term; unfold token; simpl; tauto. Qed.
Lemma nest_in n m : nest n ("OpenParen" :: m ++ ["CloseParen"]) = nest (S n) m.
Proof. unfold nest. cbn [repeat]. rewrite (repeat_cons n "OpenParen"), <- !app_assoc. cbn [app]. rewrite <- !app_assoc. reflexivity. Qed.
Inductive stage : list string -> Prop :=
| stage_entry : stage ["EntryPoint"]
| stage_expr n : stage (nest n ["Expr"])
| stage_add n : stage (nest n ["Add"])
| stage_done n : stage (nest n ["Number"; "Plus"; "Number"]).
Lemma split_one l1 x l2 a y b : Forall (term plus_rules) l1 -> Forall (term plus_rules) l2 -> nonterm plus_rules y -> l1 ++ x :: l2 = a ++ y :: b -> a = l1 /\ y = x /\ b = l2.
Proof.
  intros H1 H2 Hy. revert a. induction H1 as [|z l1 Hz _ IH]; intros [|w a] E; simpl in E; injection E as E1 E2.
  - subst. auto.
  - exfalso. subst l2. apply Forall_app in H2 as [_ H2]. inversion H2 as [|? ? H _]; subst. now apply H.
  - exfalso. subst. now apply Hz.
  - subst. destruct (IH _ E2) as (-> & -> & ->). auto.
Qed.
Lemma stage_step u v : rewrites plus_rules u v -> stage u -> stage v.
Proof.
  intros [a A b i rhs Hp] S. assert (Hn : nonterm plus_rules A) by (destruct Hp as (r & k & Hr & _); now exists r). apply plus_prods in Hp.
  remember (a ++ A :: b) as f eqn:E. destruct S as [|n|n|n]; [|destruct (parens_term n) as [T1 T2]..].
  - destruct (split_one [] _ [] _ _ _ ltac:(constructor) ltac:(constructor) Hn E) as (-> & -> & ->). destruct Hp as [[X _]|[[_ ->]|[X _]]]; try discriminate. apply (stage_expr 0).
  - destruct (split_one _ _ _ _ _ _ T1 T2 Hn E) as (-> & -> & ->). destruct Hp as [[X _]|[[X _]|[_ [-> | ->]]]]; try discriminate; [apply (stage_add n)|].
    change (stage (nest n ("OpenParen" :: ["Expr"] ++ ["CloseParen"]))). rewrite nest_in. apply stage_expr.
  - destruct (split_one _ _ _ _ _ _ T1 T2 Hn E) as (-> & -> & ->). destruct Hp as [[_ ->]|[[X _]|[X _]]]; try discriminate. apply (stage_done n).
  - exfalso. assert (H : Forall (term plus_rules) (nest n ["Number"; "Plus"; "Number"])). { unfold nest. apply Forall_app. split; auto. apply Forall_app. split; auto. repeat (constructor; [apply token_term; unfold token; simpl; tauto|]). constructor. }
    rewrite E in H. apply Forall_app in H as [_ H]. inversion H as [|? ? H1 _]; subst. now apply H1.
Qed.
Lemma stage_derives u v : derives plus_rules u v -> stage u -> stage v.
Proof. induction 1; auto. intros S. apply IHderives. eapply stage_step; eauto. Qed.
Lemma plus_at A i rhs : In (A, i, rhs) (prods plus_rules) -> prod_at plus_rules A i rhs.
Proof. apply prods_in. apply grammar_map_wf. Qed.
Lemma derives_nest n u v : derives plus_rules u v -> derives plus_rules (nest n u) (nest n v).
Proof. intros H. exact (derives_ctx _ (repeat "OpenParen" n) (repeat "CloseParen" n) _ _ H). Qed.
Lemma plus_nested w : sentence plus_rules "EntryPoint" w <-> exists n, w = nest n ["Number"; "Plus"; "Number"].
Proof.
  split.
  - intros [D T]. apply stage_derives in D; [|constructor]. rewrite Forall_forall in T.
    assert (N : forall X, In X w -> In X ["Add"; "EntryPoint"; "Expr"] -> False). { intros X HX HN. apply (T X HX). simpl in HN. destruct HN as [<-|[<-|[<-|[]]]]; apply nonterm_b_true; vm_compute; reflexivity. }
    destruct D as [|n|n|n]; [exfalso; apply (N "EntryPoint"); simpl; tauto|exfalso; apply (N "Expr"); [|simpl; tauto]|exfalso; apply (N "Add"); [|simpl; tauto]|eauto]; unfold nest; apply in_or_app; right; now left.
  - intros (n & ->). split.
    + eapply derives_trans; [eapply derives_prod, (plus_at _ 0 ["Expr"]); vm_compute; tauto|].
      assert (H : derives plus_rules ["Expr"] (nest n ["Expr"])).
      { induction n as [|n IH]; [constructor|]. eapply derives_trans; [exact IH|]. rewrite <- nest_in. apply derives_nest. eapply derives_prod, (plus_at _ 1); vm_compute; tauto. }
      eapply derives_trans; [exact H|]. apply derives_nest. eapply derives_trans; [eapply derives_prod, (plus_at _ 0 ["Add"]); vm_compute; tauto|]. eapply derives_prod, (plus_at _ 0); vm_compute; tauto.
    + destruct (parens_term n) as [T1 T2]. unfold nest. apply Forall_app. split; auto. apply Forall_app. split; auto. repeat (constructor; [apply token_term; unfold token; simpl; tauto|]). constructor.
Qed.
