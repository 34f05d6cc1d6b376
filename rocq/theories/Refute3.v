(** Counterexamples and examples beside C81 - C87. *)
From Coq Require Import List Bool Arith String Lia.
From Verif Require Import BTree Model Show Strings Grammars Base Spec SpecP GrammarP FirstFollow Closure ActTab LR Interface Wrap Reduce Mono Total Final Check Export Examples Refute Refute2 Iter Values.
Import ListNotations.
Local Open Scope string_scope.
Local Open Scope list_scope.
Local Notation length := List.length.

(** ** C82, C83: Z -> S; S -> p A Y | q A x | q A y; Y -> x | y; A -> b a  under Clr: 15, 14, 13 rows *)
Definition shrink2 := grammar_map [("Z", [["S"]]); ("S", [["p"; "A"; "Y"]; ["q"; "A"; "x"]; ["q"; "A"; "y"]]); ("Y", [["x"]; ["y"]]); ("A", [["b"; "a"]])].
Definition shrink2_g := gof "Z" shrink2 (calc_g true).
Definition shrink2_t := tab CLR true 60 shrink2_g.
Definition shrink2_r := match reduce_equals true shrink2_t with Val t => t | _ => shrink2_t end.
Lemma shrink2_wf : wf_rules shrink2. Proof. facts. Qed.
Lemma shrink2_gE : grammar_new true "Z" shrink2 "$" = Val shrink2_g. Proof. check. Qed.
Lemma shrink2_makes : makes CLR true shrink2_g shrink2_t. Proof. apply (tab_makes CLR). check. Qed.
Lemma shrink2_reduce : reduce_equals true shrink2_t = Val shrink2_r. Proof. check. Qed.

Fixpoint nodupb {A} (eq : A -> A -> bool) (l : list A) : bool := match l with [] => true | x :: l => negb (existsb (eq x) l) && nodupb eq l end.
Lemma nodupb_not {A} {O : Ord A} (l : list A) : nodupb eqb l = false -> ~ NoDup l.
Proof.
  induction l as [|x l IH]; simpl; [discriminate|]. intros E N. inversion N as [|? ? H1 H2]; subst. apply andb_false_iff in E as [E|E]; [|now apply IH].
  apply negb_false_iff, existsb_exists in E as (y & Hy & E). apply eqb_eq in E as <-. contradiction.
Qed.
Lemma nodupb_yes {A} {O : Ord A} (l : list A) : nodupb eqb l = true -> NoDup l.
Proof.
  induction l as [|x l IH]; simpl; [constructor|]. intros [E1 E2]%andb_true_iff. constructor; auto. intros Hx.
  apply negb_true_iff in E1. assert (existsb (eqb x) l = true) as E; [|congruence]. apply existsb_exists. exists x. split; auto. now apply eqb_eq.
Qed.

Lemma shrink2_dup : ~ NoDup (t_actions shrink2_r).
Proof. apply nodupb_not. check. Qed.
Lemma lost_row (t : tabler string) : existsb (fun e => match nth_error (t_actions t) (snd e) with None => true | _ => false end) (t_kernels t) = true ->
  exists st q, In (st, q) (t_kernels t) /\ nth_error (t_actions t) q = None.
Proof. intros ([st q] & H1 & H2)%existsb_exists. exists st, q. split; auto. simpl in H2. now destruct (nth_error _ q). Qed.
Lemma shrink2_lost : exists st q, In (st, q) (t_kernels shrink2_r) /\ nth_error (t_actions shrink2_r) q = None.
Proof. apply lost_row. check. Qed.
Lemma shrink2_counts : length (t_actions shrink2_t) = 15 /\ length (t_actions shrink2_r) = 14 /\
  exists t, reduce_times true 2 shrink2_t = Val t /\ length (t_actions t) = 13.
Proof.
  split; [check|]. split; [check|]. exists (match reduce_times true 2 shrink2_t with Val t => t | _ => shrink2_t end). split; check.
Qed.
Lemma calc_distinct k : NoDup (t_actions (calc_tab k)).
Proof. apply nodupb_yes. destruct k; check. Qed.

(** ** C84: two ways to evaluate 1 + 2 *)
Definition calc_strings : list (token string string) := [mkTok "1" "n"; mkTok "+" "+"; mkTok "2" "n"].
Definition calc_numbers : list (token string nat) := [mkTok 1 "n"; mkTok 0 "+"; mkTok 2 "n"].
Lemma domain_ok {T M1 M2} {O : Ord T} (m1 : reductmap T M1) (m2 : reductmap T M2) :
  map (fun e => (fst e, length (snd e))) m1 = map (fun e => (fst e, length (snd e))) m2 -> same_domain m1 m2.
Proof.
  intros E A i.
  assert (match bm_get A m1, bm_get A m2 with Some a, Some b => length a = length b | None, None => True | _, _ => False end) as H.
  { revert m2 E. induction m1 as [|[k1 v1] m1 IH]; intros [|[k2 v2] m2] E; simpl in E; try discriminate; [exact I|].
    injection E as -> El E. cbn [bm_get]. destruct (eqb A k2); [exact El|exact (IH _ E)]. }
  destruct (bm_get A m1) as [a|], (bm_get A m2) as [b|]; try contradiction.
  - split; intros (fs & f & [= <-] & Hi).
    + assert (i < length b) as Hl by (rewrite <- H; apply nth_error_Some; congruence). apply nth_error_Some in Hl.
      destruct (nth_error b i) as [f'|] eqn:E'; [|congruence]. eauto.
    + assert (i < length a) as Hl by (rewrite H; apply nth_error_Some; congruence). apply nth_error_Some in Hl.
      destruct (nth_error a i) as [f'|] eqn:E'; [|congruence]. eauto.
  - split; intros (fs & f & [=] & _).
Qed.
Lemma calc_domain : same_domain (cloned_map (calc_g true) "?") calc_maps.
Proof. apply domain_ok. check. Qed.
Lemma calc_numbers_parses k : parses (calc_tab k) calc_numbers calc_maps (POk 3).
Proof. exists 60. destruct k; check. Qed.
Lemma calc_cloned k : parses (calc_tab k) calc_strings (cloned_map (calc_g true) "?") (POk "E").
Proof. exists 60. destruct k; check. Qed.

(** ** C86 *)
Definition inc_input : list (token string nat) := [mkTok 1 "n"; mkTok 0 "$"].
Definition inc_d k := dfa_new inc_input (t_actions (calc_tab k)) calc_maps "$".
Definition inc_d' k := match dfa_start 60 (inc_d k) with Val (d, _) => d | _ => inc_d k end.
Lemma inc_start k : parser_dfa (calc_tab k) inc_input calc_maps = Val (inc_d k). Proof. destruct k; check. Qed.
Lemma inc_first k : dfa_start 60 (inc_d k) = Val (inc_d' k, Err IncompleteExec). Proof. destruct k; check. Qed.
Lemma inc_again k : dfa_start 1 (inc_d' k) = Val (inc_d' k, Ok). Proof. destruct k; check. Qed.

Definition bad_d k := dfa_new calc_bad (t_actions (calc_tab k)) calc_maps "$".
Definition bad_d' k := match dfa_start 60 (bad_d k) with Val (d, _) => d | _ => bad_d k end.
Lemma bad_start k : parser_dfa (calc_tab k) calc_bad calc_maps = Val (bad_d k). Proof. destruct k; check. Qed.
Lemma bad_first k : dfa_start 60 (bad_d k) = Val (bad_d' k, Err (UnexpectedToken "+" ["("; "T"; "n"])). Proof. destruct k; check. Qed.

(** ** C87: the nonterminal lookaheads of a release build *)
Lemma column_row (t : tabler string) A (P : action string -> bool) :
  existsb (fun row => match bm_get A row with Some a => P a | None => false end) (t_actions t) = true ->
  exists q row a, nth_error (t_actions t) q = Some row /\ bm_get A row = Some a /\ P a = true.
Proof.
  intros (row & H1 & H2)%existsb_exists. apply In_nth_error in H1 as (q & H1). destruct (bm_get A row) as [a|] eqn:E; [|discriminate]. exists q, row, a. auto.
Qed.
Lemma tri2_column : exists q row a, nth_error (t_actions (tab CLR false 60 tri2_g)) q = Some row /\ bm_get "B" row = Some a /\ is_conflict a = true.
Proof. apply column_row. check. Qed.
Lemma tri2_B : nonterm tri2 "B". Proof. apply nonterm_b_true. check. Qed.
Lemma tri2_wf : wf_rules tri2. Proof. facts. Qed.
Lemma tri2_eof : term tri2 "$". Proof. facts. Qed.
Lemma calc_row k : exists q row, nth_error (t_actions (calc_tab k)) q = Some row /\ (exists a, bm_get "E" row = Some a) /\ exists b, bm_get "n" row = Some b.
Proof.
  exists 0, (nth 0 (t_actions (calc_tab k)) []). split; [destruct k; check|]. 
  split; [exists (match bm_get "E" (nth 0 (t_actions (calc_tab k)) []) with Some a => a | None => Acc end)|exists (match bm_get "n" (nth 0 (t_actions (calc_tab k)) []) with Some a => a | None => Acc end)]; destruct k; check.
Qed.
Lemma calc_E : nonterm calc "E". Proof. apply nonterm_b_true. check. Qed.
Lemma calc_n : term calc "n". Proof. facts. Qed.
