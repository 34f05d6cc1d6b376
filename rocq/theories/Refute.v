(** Counterexamples: concrete grammars and inputs on which the code does not do what the
    property says.  Each is checked by computation. *)
From Coq Require Import List Bool Arith ZArith String Lia.
From Verif Require Import BTree Model Strings Grammars Base Spec SpecP GrammarP FirstFollow Closure ActTab LR Interface Wrap Mono Total Final Check Examples.
Import ListNotations.
Local Open Scope string_scope.
Local Notation length := List.length.

(** ** checking derivations and non-derivations *)
Section Derive.
Context {T : Type} {OT : Ord T}.
Variable rules : rulemap T.
Hypothesis W : wf_rules rules.

Definition step_b (u v : list T) : bool :=
  existsb (fun i => existsb (fun '(A, _, rhs) => match nth_error u i with
    | Some X => eqb X A && eqb v (firstn i u ++ rhs ++ skipn (S i) u)%list
    | None => false end) (prods rules)) (seq 0 (length u)).

Lemma step_ok u v : step_b u v = true -> rewrites rules u v.
Proof.
  unfold step_b. rewrite existsb_exists. intros (i & _ & H). rewrite existsb_exists in H. destruct H as ([[A j] rhs] & Hin & H).
  destruct (nth_error u i) as [X|] eqn:E; [|discriminate]. apply andb_prop in H as [H1 H2]. apply eqb_eq in H1, H2. subst X v.
  apply prods_in in Hin; auto. rewrite <- (firstn_skipn i u) at 1. rewrite (skipn_nth_cons _ _ _ E). econstructor; eauto.
Qed.

Fixpoint chain_b (u : list T) (l : list (list T)) : bool :=
  match l with [] => true | v :: l' => step_b u v && chain_b v l' end.

Lemma chain_ok l : forall u, chain_b u l = true -> derives rules u (last l u).
Proof.
  induction l as [|v l IH]; intros u H; [constructor|]. cbn [chain_b] in H. apply andb_prop in H as [H1 H2].
  econstructor; [apply step_ok; exact H1|]. apply IH in H2. destruct l as [|x l]; auto.
  replace (last (v :: x :: l) u) with (last (x :: l) v); auto. clear. change (last (v :: x :: l) u) with (last (x :: l) u).
  revert x. induction l as [|y l IH]; intros x; auto. change (last (y :: l) v = last (y :: l) u). apply IH.
Qed.

(** a weight kept by every production tells what cannot be derived *)
Variable w : T -> Z.
Definition weight (l : list T) : Z := fold_right (fun x a => (w x + a)%Z) 0%Z l.
Definition weight_b : bool := forallb (fun '(A, _, rhs) => Z.eqb (w A) (weight rhs)) (prods rules).

Lemma weight_app u v : weight (u ++ v) = (weight u + weight v)%Z.
Proof. unfold weight. induction u as [|x u IH]; cbn [app fold_right]; [reflexivity|]. rewrite IH. lia. Qed.

Lemma weight_ok : weight_b = true -> forall u v, derives rules u v -> weight u = weight v.
Proof.
  intros H u v. induction 1 as [|u v v' [a A b i rhs Hp] _ IH]; auto. rewrite <- IH.
  apply (forall_prods rules W _ H) in Hp. apply Z.eqb_eq in Hp. rewrite !weight_app. unfold weight at 2. cbn [fold_right]. fold (weight b). rewrite Hp. lia.
Qed.
End Derive.

Ltac facts := repeat match goal with
  | |- wf_rules _ => apply grammar_map_wf
  | |- start_fresh _ _ => apply fresh_ok; [apply grammar_map_wf|check]
  | |- single_start _ _ => apply single_ok; [apply grammar_map_wf|check]
  | |- noempty _ => apply noempty_ok; [apply grammar_map_wf|check]
  | |- term _ _ => apply nonterm_b_false; check
  | |- Forall (term _) _ => apply terms_ok; check
  end.

(** ** C04: Tabler::new does not terminate *)
Definition left3 := grammar_map [("Z", [["A"]]); ("A", [["B"; "x"]]); ("B", [["C"; "y"]]); ("C", [["A"; "z"]; ["c"]])].
Definition right3 := grammar_map [("Z", [["E"]]); ("E", [["T"]]); ("T", [["F"]]); ("F", [["-"; "E"]; ["x"]])].

Fixpoint orbit {A} (f : A -> res A) (n : nat) (x : A) : list A :=
  match n with 0 => [x] | S n => x :: match f x with Val y => orbit f n y | _ => [] end end.
Lemma orbit_head {A} (f : A -> res A) n x : In x (orbit f n x). Proof. destruct n; left; reflexivity. Qed.


Definition gof (s : string) (r : rulemap string) (d : grammar string) : grammar string :=
  match grammar_new false s r "$" with Val g => g | _ => d end.
Definition left3_g : grammar string := gof "Z" left3 (calc_g true).
Lemma left3_gE dbg : grammar_new dbg "Z" left3 "$" = Val left3_g. Proof. destruct dbg; check. Qed.
Definition right3_g : grammar string := gof "Z" right3 (calc_g true).
Lemma right3_gE dbg : grammar_new dbg "Z" right3 "$" = Val right3_g. Proof. destruct dbg; check. Qed.

Lemma left3_diverges dbg fuel : tabler_new dbg fuel left3_g = Fuel.
Proof.
  unfold tabler_new.
  assert (match gen_first left3_g with Val f0 => orbit_b (first_step left3_g) (orbit (first_step left3_g) 10 f0) | _ => false end = true) as E1 by check.
  destruct (gen_first left3_g) as [f0| |]; [|discriminate..]. cbn [bind]. unfold proc_first.
  rewrite (transitive_diverges (first_step left3_g) (orbit (first_step left3_g) 10 f0)); [reflexivity| |apply orbit_head].
  now apply orbit_ok.
Qed.

Lemma right3_diverges dbg fuel : tabler_new dbg fuel right3_g = Fuel.
Proof.
  revert fuel. enough (G : forall fuel, 10 <= fuel -> tabler_new dbg fuel right3_g = Fuel).
  { intros fuel. pose proof (tabler_rle dbg right3_g fuel (max fuel 10) ltac:(lia)) as R. rewrite (G (max fuel 10)) in R by lia.
    destruct (tabler_new dbg fuel right3_g) as [v|p|]; auto; exfalso; [assert (Fuel = Val v) by (apply R; discriminate)|assert (Fuel = Panic p) by (apply R; discriminate)]; discriminate. }
  intros fuel Hf. unfold tabler_new.
  assert (match gen_first right3_g with Val f0 => match transitive 10 f0 (first_step right3_g) with Val f1 => all_terminal right3_g f1 &&
    match gen_follow right3_g f1 with Val w0 => orbit_b (fun t => Val (follow_step right3_g t)) (orbit (fun t => Val (follow_step right3_g t)) 10 w0) | _ => false end
    | _ => false end | _ => false end = true) as E by check.
  destruct (gen_first right3_g) as [f0| |]; [|discriminate..]. cbn [bind]. unfold proc_first.
  destruct (transitive 10 f0 (first_step right3_g)) as [f1| |] eqn:E1; [|discriminate..]. rewrite (transitive_mono _ _ _ _ E1) by lia. cbn [bind].
  apply andb_prop in E as [E2 E]. rewrite E2, dassert_true. cbn [bind].
  destruct (gen_follow right3_g f1) as [w0| |]; [|discriminate..]. cbn [bind]. unfold proc_follow.
  rewrite (transitive_diverges (fun t => Val (follow_step right3_g t)) (orbit (fun t => Val (follow_step right3_g t)) 10 w0)); [reflexivity| |apply orbit_head].
  now apply orbit_ok.
Qed.

(** ** tables of concrete grammars *)
Definition no_table (g : grammar string) : tabler string := mkTabler g [] [] [] [] [].
Definition tab0 (dbg : bool) (n : nat) (g : grammar string) : tabler string := match tabler_new dbg n g with Val t => t | _ => no_table g end.
Definition tab (k : method) (dbg : bool) (n : nat) (g : grammar string) : tabler string :=
  match k with
  | SLR => match slr_new dbg n g with Val t => t | _ => no_table g end
  | CLR => match clr_new dbg n g with Val t => t | _ => no_table g end
  | LALR => match lalr_new dbg n g with Val (t, _) => t | _ => no_table g end
  end.
Definition tab_b (k : method) (dbg : bool) (n : nat) (g : grammar string) : bool :=
  match k with
  | SLR => match slr_new dbg n g with Val _ => true | _ => false end
  | CLR => match clr_new dbg n g with Val _ => true | _ => false end
  | LALR => match lalr_new dbg n g with Val _ => true | _ => false end
  end.
Lemma tab_makes k dbg n g : tab_b k dbg n g = true -> makes k dbg g (tab k dbg n g).
Proof.
  destruct k; simpl; intros H; exists n.
  - destruct (slr_new dbg n g); [reflexivity|discriminate..].
  - destruct (clr_new dbg n g); [reflexivity|discriminate..].
  - destruct (lalr_new dbg n g) as [[t p]| |]; [|discriminate..]. exists p. reflexivity.
Qed.

(** ** C05, C03: nonterminals left in FIRST and FOLLOW of a release build *)
Definition tri := grammar_map [("Z", [["S"]]); ("S", [["X"; "A"]; ["("; "A"; ")"]]); ("X", [["x"]]); ("A", [["B"]; ["C"]]); ("B", [["A"]; ["C"]]); ("C", [["A"]; ["B"]; ["c"]])].
Definition tri_g := gof "Z" tri (calc_g true).
Lemma tri_gE dbg : grammar_new dbg "Z" tri "$" = Val tri_g. Proof. destruct dbg; check. Qed.
Definition tri_t := tab0 false 20 tri_g.
Lemma tri_makes : tabler_makes false tri_g tri_t. Proof. exists 20. check. Qed.

Definition has_b (tbl : table string) (A x : string) : bool := match bm_get A tbl with Some s => mem_b x s | None => false end.
Lemma has_ok tbl A x : has_b tbl A x = true -> exists s, bm_get A tbl = Some s /\ In x s.
Proof. unfold has_b. destruct (bm_get A tbl) as [s|]; [|discriminate]. intros H. exists s. split; auto. now apply mem_b_in. Qed.

(** candidate FIRST and FOLLOW sets closed under the rules bound the true ones *)
Section Bound.
Variable rules : rulemap string.
Hypothesis W : wf_rules rules.
Variables (s eof : string) (P F : string -> list string).
Definition P' (x : string) : list string := if nonterm_b rules x then P x else [x].
Definition sub_b (l m : list string) : bool := forallb (fun x => mem_b x m) l.
Fixpoint pairs_b (B : string) (rhs : list string) : bool :=
  match rhs with
  | [] => true
  | A :: rest => (negb (nonterm_b rules A) || match rest with [] => sub_b (F B) (F A) | Y :: _ => sub_b (P' Y) (F A) end) && pairs_b B rest
  end.
Definition bound_b : bool := mem_b eof (F s) && noempty_b rules &&
  forallb (fun '(A, _, rhs) => match rhs with Y :: _ => sub_b (P' Y) (P A) | [] => false end && pairs_b A rhs) (prods rules).

Lemma sub_ok l m x : sub_b l m = true -> In x l -> In x m.
Proof. unfold sub_b. rewrite forallb_forall. intros H Hx. apply H in Hx. now apply mem_b_in. Qed.

Hypothesis HB : bound_b = true.

Lemma bound_first X t : first_spec rules X t -> In t (P' X).
Proof.
  apply andb_prop in HB as [HB1 HB2]. apply andb_prop in HB1 as [_ HN]. apply noempty_ok in HN; auto.
  intros H. apply first_lcorner in H as [Ht H]; auto. induction H as [X|X i Y v t Hp _ IH].
  - unfold P'. apply nonterm_b_false in Ht. rewrite Ht. now left.
  - assert (nonterm_b rules X = true) as HX by (apply nonterm_b_true; eapply prod_nonterm; eauto).
    apply (forall_prods rules W _ HB2) in Hp. apply andb_prop in Hp as [Hp _]. unfold P' at 1. rewrite HX. eapply sub_ok; eauto.
Qed.

Lemma pairs_first B A Y u v : pairs_b B (u ++ A :: Y :: v) = true -> nonterm rules A -> sub_b (P' Y) (F A) = true.
Proof.
  intros H HA. apply nonterm_b_true in HA. induction u as [|x u IH]; cbn [app pairs_b] in H; apply andb_prop in H as [H1 H2]; auto.
  rewrite HA in H1. exact H1.
Qed.
Lemma pairs_last B A u : pairs_b B (u ++ [A]) = true -> nonterm rules A -> sub_b (F B) (F A) = true.
Proof.
  intros H HA. apply nonterm_b_true in HA. induction u as [|x u IH]; cbn [app pairs_b] in H; apply andb_prop in H as [H1 H2]; auto.
  rewrite HA in H1. exact H1.
Qed.

Lemma bound_follow A t : follow_rules rules s eof A t -> In t (F A).
Proof.
  pose proof HB as HB'. apply andb_prop in HB' as [HB1 HB2]. apply andb_prop in HB1 as [HE _]. apply mem_b_in in HE.
  induction 1 as [|B i u A Y v t Hp HA Hf|B i u A t Hp HA _ IH]; auto; apply (forall_prods rules W _ HB2) in Hp; apply andb_prop in Hp as [_ Hp].
  - eapply sub_ok; [eapply pairs_first; eauto|]. now apply bound_first.
  - eapply sub_ok; [eapply pairs_last; eauto|]. exact IH.
Qed.
End Bound.

Lemma tri_nonterminals : exists A s x, bm_get A (t_first tri_t) = Some s /\ In x s /\ nonterm tri x.
Proof.
  destruct (has_ok (t_first tri_t) "A" "B") as (s & H1 & H2); [check|]. exists "A", s, "B". split; [exact H1|]. split; [exact H2|]. apply nonterm_b_true. check.
Qed.
Lemma tri_nonterminals_follow : exists A s x, bm_get A (t_follow tri_t) = Some s /\ In x s /\ nonterm tri x.
Proof.
  destruct (has_ok (t_follow tri_t) "X" "B") as (s & H1 & H2); [check|]. exists "X", s, "B". split; [exact H1|]. split; [exact H2|]. apply nonterm_b_true. check.
Qed.

Lemma tri_debug_panics fuel : 20 <= fuel -> tabler_new true fuel tri_g = Panic P_debug_assert.
Proof.
  intros L. assert (tabler_new true 20 tri_g = Panic P_debug_assert) as H by check.
  pose proof (tabler_rle true tri_g 20 fuel L) as R. rewrite H in R. apply R. discriminate.
Qed.

(** in [tri] only [c] follows [X], but the release build also puts end of input and [)] into FOLLOW(X) *)
Lemma tri_follow_wrong : (exists s, bm_get "X" (t_follow tri_t) = Some s /\ In "$" s) /\ term tri "$" /\ ~ follow_rules tri "Z" "$" "X" "$".
Proof.
  split; [apply has_ok; check|]. split; [facts|]. intros H.
  apply (bound_follow tri ltac:(facts) "Z" "$"
    (fun X => if mem_b X ["Z"; "S"] then ["("; "x"] else if mem_b X ["X"] then ["x"] else ["c"])
    (fun X => if mem_b X ["Z"; "S"] then ["$"] else if mem_b X ["X"] then ["c"] else [")"; "$"])) in H; [|check].
  vm_compute in H. destruct H as [H|[]]. discriminate H.
Qed.

(** ** C27 fails in a release build whose FIRST sets kept nonterminals *)
Definition tri2 := grammar_map [("Z", [["S"]]); ("S", [["X"; "A"]; ["P"]]); ("X", [["x"]]); ("P", [["x"; "B"; "h"]]);
  ("A", [["B"; "a"]; ["C"; "b"]]); ("B", [["A"; "d"]; ["C"; "e"]]); ("C", [["A"; "f"]; ["B"; "g"]])].
Definition tri2_g := gof "Z" tri2 (calc_g true).
Lemma tri2_gE : grammar_new false "Z" tri2 "$" = Val tri2_g. Proof. check. Qed.
Lemma tri2_makes k : makes k false tri2_g (tab k false 60 tri2_g). Proof. apply tab_makes. destruct k; check. Qed.
Lemma tri2_slr : conflicts (t_actions (tab SLR false 60 tri2_g)) = []. Proof. check. Qed.
Lemma nonempty {A} (l : list A) : (match l with [] => false | _ => true end) = true -> l <> []. Proof. destruct l; discriminate. Qed.
Lemma tri2_clr : conflicts (t_actions (tab CLR false 60 tri2_g)) <> []. Proof. apply nonempty. check. Qed.
Lemma tri2_lalr : conflicts (t_actions (tab LALR false 60 tri2_g)) <> []. Proof. apply nonempty. check. Qed.

(** ** C21: a release parser that panics on a token typed with a nonterminal *)
Definition tri3 := grammar_map [("Z", [["S"]]); ("S", [["D"; "A"]]); ("D", [["B"]]); ("A", [["B"; "a"]; ["C"; "b"]]); ("B", [["A"; "d"]; ["C"; "e"]]); ("C", [["A"; "f"]; ["B"; "g"]])].
Definition tri3_g := gof "Z" tri3 (calc_g true).
Lemma tri3_gE : grammar_new false "Z" tri3 "$" = Val tri3_g. Proof. check. Qed.
Lemma tri3_makes k : makes k false tri3_g (tab k false 60 tri3_g). Proof. apply tab_makes. destruct k; check. Qed.
Lemma tri3_panics k : k <> SLR -> parser_parse 20 (tab k false 60 tri3_g) (to_tokens ["B"]) (empty_map tri3_g) = Panic P_underflow.
Proof. destruct k; [contradiction|intros _; check..]. Qed.

(** ** recursive start symbol *)
Definition rec1 := grammar_map [("S", [["A"]]); ("A", [["a"]; ["("; "S"; "$"; "x"]])].
Definition rec1_g := gof "S" rec1 (calc_g true).
Lemma rec1_gE dbg : grammar_new dbg "S" rec1 "$" = Val rec1_g. Proof. destruct dbg; check. Qed.
Lemma rec1_makes : makes CLR true rec1_g (tab CLR true 60 rec1_g). Proof. apply tab_makes. check. Qed.
Lemma rec1_accepts : validates (tab CLR true 60 rec1_g) (to_tokens ["("; "a"]) true. Proof. exists 20. check. Qed.
Lemma rec1_not : ~ sentence rec1 "S" ["("; "a"].
Proof.
  intros [H _]. apply (weight_ok rec1 ltac:(facts) (fun x => if eqb x "(" then 1%Z else if eqb x "x" then (-1)%Z else 0%Z)) in H; [|check]. vm_compute in H. discriminate.
Qed.

Definition rec2 := grammar_map [("S", [["A"]]); ("A", [["a"]; ["("; "S"; ")"]])].
Definition rec2_g := gof "S" rec2 (calc_g true).
Lemma rec2_gE dbg : grammar_new dbg "S" rec2 "$" = Val rec2_g. Proof. destruct dbg; check. Qed.
Definition rec2_t k := tab k true 60 rec2_g.
Lemma rec2_makes k : makes k true rec2_g (rec2_t k). Proof. apply tab_makes. destruct k; check. Qed.
Lemma rec2_clean k : conflicts (t_actions (rec2_t k)) = []. Proof. destruct k; check. Qed.
Lemma rec2_accepts k : k <> CLR -> validates (rec2_t k) (to_tokens ["("; "a"]) true. Proof. intros H. exists 20. destruct k; try contradiction; check. Qed.
Lemma rec2_rejects k : validates (rec2_t k) (to_tokens ["("; "a"; ")"]) false. Proof. exists 20. destruct k; check. Qed.
Lemma rec2_clr_rejects : validates (rec2_t CLR) (to_tokens ["("; "a"]) false. Proof. exists 20. check. Qed.
Lemma rec2_not : ~ sentence rec2 "S" ["("; "a"].
Proof.
  intros [H _]. apply (weight_ok rec2 ltac:(facts) (fun x => if eqb x "(" then 1%Z else if eqb x ")" then (-1)%Z else 0%Z)) in H; [|check]. vm_compute in H. discriminate.
Qed.
Lemma rec2_sentence : sentence rec2 "S" ["("; "a"; ")"].
Proof.
  split; [|facts]. refine (chain_ok rec2 ltac:(facts) [["A"]; ["("; "S"; ")"]; ["("; "A"; ")"]; ["("; "a"; ")"]] ["S"] _). check.
Qed.

(** S -> A;  A -> a | S  is ambiguous, but no table shows a conflict *)
Definition cyc := grammar_map [("S", [["A"]]); ("A", [["a"]; ["S"]])].
Definition cyc_g := gof "S" cyc (calc_g true).
Lemma cyc_gE dbg : grammar_new dbg "S" cyc "$" = Val cyc_g. Proof. destruct dbg; check. Qed.
Lemma cyc_makes k : makes k true cyc_g (tab k true 60 cyc_g). Proof. apply tab_makes. destruct k; check. Qed.
Lemma cyc_clean k : conflicts (t_actions (tab k true 60 cyc_g)) = []. Proof. destruct k; check. Qed.
Definition prod_b (rules : rulemap string) A i rhs : bool := existsb (eqb (A, i, rhs)) (prods rules).
Lemma prod_ok rules A i rhs : wf_rules rules -> prod_b rules A i rhs = true -> prod_at rules A i rhs.
Proof. intros W H. apply existsb_exists in H as (x & Hin & E). apply eqb_eq in E. subst x. now apply prods_in in Hin. Qed.
Lemma cyc_tree1 : tree_of cyc "S" ["a"] (Node "S" 0 [Node "A" 0 [Leaf "a"]]).
Proof.
  apply tree_node with ["A"]; [apply prod_ok; [facts|check]|]. apply (trees_cons cyc "A" [] ["a"] []); [|constructor].
  apply tree_node with ["a"]; [apply prod_ok; [facts|check]|]. apply (trees_cons cyc "a" [] ["a"] []); constructor. facts.
Qed.
Lemma cyc_tree2 : tree_of cyc "S" ["a"] (Node "S" 0 [Node "A" 1 [Node "S" 0 [Node "A" 0 [Leaf "a"]]]]).
Proof.
  apply tree_node with ["A"]; [apply prod_ok; [facts|check]|]. apply (trees_cons cyc "A" [] ["a"] []); [|constructor].
  apply tree_node with ["S"]; [apply prod_ok; [facts|check]|]. apply (trees_cons cyc "S" [] ["a"] []); [exact cyc_tree1|constructor].
Qed.

(** ** a second start production, dropped by a release build *)
Definition two := grammar_map [("Z", [["a"]; ["b"]])].
Definition two_g := gof "Z" two (calc_g true).
Lemma two_gE : grammar_new false "Z" two "$" = Val two_g. Proof. check. Qed.
Lemma two_makes k : makes k false two_g (tab k false 60 two_g). Proof. apply tab_makes. destruct k; check. Qed.
Lemma two_clean k : conflicts (t_actions (tab k false 60 two_g)) = []. Proof. destruct k; check. Qed.
Lemma two_sentence : sentence two "Z" ["b"].
Proof. split; [|facts]. refine (chain_ok two ltac:(facts) [["b"]] ["Z"] _). check. Qed.
Lemma two_fails k : fails (tab k false 60 two_g) (to_tokens ["b"]) (empty_map two_g) (to_tokens ["b"]) (UnexpectedToken "b" ["a"]).
Proof.
  exists (dfa_new (to_tokens ["b"]) (t_actions (tab k false 60 two_g)) (empty_map two_g) "$"), (dfa_new (to_tokens ["b"]) (t_actions (tab k false 60 two_g)) (empty_map two_g) "$"), 20.
  destruct k; (split; [check|]); split; check.
Qed.
Lemma two_rejects k : validates (tab k false 60 two_g) (to_tokens ["b"]) false. Proof. exists 20. destruct k; check. Qed.

(** ** C15, C28: Lalr loses lookaheads *)
Definition lost := grammar_map [("Z", [["S"]]); ("S", [["A"; "x"]; ["c"; "A"; "y"]]); ("A", [["a"; "B"]]); ("B", [["b"]])].
Definition lost_g := gof "Z" lost (calc_g true).
Lemma lost_gE dbg : grammar_new dbg "Z" lost "$" = Val lost_g. Proof. destruct dbg; check. Qed.
Definition lost_t k := tab k true 60 lost_g.
Lemma lost_makes k : makes k true lost_g (lost_t k). Proof. apply tab_makes. destruct k; check. Qed.
Lemma lost_clean k : conflicts (t_actions (lost_t k)) = []. Proof. destruct k; check. Qed.
Lemma lost_rejects : validates (lost_t LALR) (to_tokens ["c"; "a"; "b"; "y"]) false. Proof. exists 20. check. Qed.
Lemma lost_accepts k : k <> LALR -> validates (lost_t k) (to_tokens ["c"; "a"; "b"; "y"]) true. Proof. intros H. exists 20. destruct k; try contradiction; check. Qed.
Lemma lost_sentence : sentence lost "Z" ["c"; "a"; "b"; "y"].
Proof.
  split; [|facts]. refine (chain_ok lost ltac:(facts) [["S"]; ["c"; "A"; "y"]; ["c"; "a"; "B"; "y"]; ["c"; "a"; "b"; "y"]] ["Z"] _). check.
Qed.
Lemma lost_fails : fails (lost_t LALR) (to_tokens ["c"; "a"; "b"; "y"]) (empty_map lost_g) (to_tokens ["y"]) (UnexpectedToken "y" ["x"]).
Proof.
  pose (d := dfa_new (to_tokens ["c"; "a"; "b"; "y"]) (t_actions (lost_t LALR)) (empty_map lost_g) "$").
  exists d, (match dfa_start 20 d with Val (d', _) => d' | _ => d end), 20. split; [check|]. split; check.
Qed.

Definition hidden := grammar_map [("Z", [["S"]]); ("S", [["A"; "x"]; ["c"; "A"; "y"]]); ("A", [["a"; "B"]]); ("B", [["b"]; ["b"; "y"]])].
Definition hidden_g := gof "Z" hidden (calc_g true).
Lemma hidden_gE dbg : grammar_new dbg "Z" hidden "$" = Val hidden_g. Proof. destruct dbg; check. Qed.
Lemma hidden_makes k : makes k true hidden_g (tab k true 60 hidden_g). Proof. apply tab_makes. destruct k; check. Qed.
Lemma hidden_lalr : conflicts (t_actions (tab LALR true 60 hidden_g)) = []. Proof. check. Qed.
Lemma hidden_clr : conflicts (t_actions (tab CLR true 60 hidden_g)) <> []. Proof. apply nonempty. check. Qed.

(** ** C20: Slr parsing does not terminate *)
Definition loop := grammar_map [("Y", [["S"]]); ("S", [["C"; "U"]]); ("U", [["U"; "u"]]); ("C", [["D"]; ["c"]]); ("D", [["C"]]); ("W", [["C"; "y"]])].
Definition loop_g := gof "Y" loop (calc_g true).
Lemma loop_gE dbg : grammar_new dbg "Y" loop "$" = Val loop_g. Proof. destruct dbg; check. Qed.
Definition loop_t := tab SLR true 60 loop_g.
Lemma loop_makes : makes SLR true loop_g loop_t. Proof. apply (tab_makes SLR). check. Qed.
Lemma loop_clean : conflicts (t_actions loop_t) = []. Proof. check. Qed.

Definition next_conf {M} (d : dfa string M) : dfa string M := match travel 5 d (lookahead d) with Val (d', Ok) => d' | _ => d end.
Definition loop_d0 := dfa_new (to_tokens ["c"; "y"]) (t_actions loop_t) (empty_map loop_g) "$".
Definition loop_d1 := next_conf loop_d0.
Definition loop_d2 := next_conf loop_d1.
Definition loop_d3 := next_conf loop_d2.
Lemma loop_diverges fuel : parser_parse fuel loop_t (to_tokens ["c"; "y"]) (empty_map loop_g) = Fuel.
Proof.
  unfold parser_parse. assert (parser_dfa loop_t (to_tokens ["c"; "y"]) (empty_map loop_g) = Val loop_d0) as -> by check. cbn [bind].
  rewrite (start_diverges (fun d => d = loop_d0 \/ d = loop_d1 \/ d = loop_d2 \/ d = loop_d3)); [reflexivity| |now left].
  intros d [-> |[-> |[-> | ->]]].
  - split; [check|]. exists 5, loop_d1. split; [check|]. auto.
  - split; [check|]. exists 5, loop_d2. split; [check|]. auto.
  - split; [check|]. exists 5, loop_d3. split; [check|]. auto.
  - split; [check|]. exists 5, loop_d2. split; [check|]. auto.
Qed.

(** ** a token typed with a nonterminal can make any of the parsers diverge *)
Definition nt := grammar_map [("Z", [["A"]]); ("A", [["A"; "A"]; ["a"]])].
Definition nt_g := gof "Z" nt (calc_g true).
Lemma nt_gE dbg : grammar_new dbg "Z" nt "$" = Val nt_g. Proof. destruct dbg; check. Qed.
Lemma nt_makes k : makes k true nt_g (tab k true 60 nt_g). Proof. apply tab_makes. destruct k; check. Qed.
Definition nt_goes (k : method) (q : nat) : bool := match nth_error (t_actions (tab k true 60 nt_g)) q with
  | Some row => match bm_get "A" row with Some (Goto n) => (Nat.eqb n 1 || Nat.eqb n 3)%bool | _ => false end | None => false end.
Lemma nt_diverges k fuel : parser_parse fuel (tab k true 60 nt_g) (to_tokens ["A"]) (empty_map nt_g) = Fuel.
Proof.
  unfold parser_parse. set (t := tab k true 60 nt_g).
  assert (parser_dfa t (to_tokens ["A"]) (empty_map nt_g) = Val (dfa_new (to_tokens ["A"]) (t_actions t) (empty_map nt_g) "$")) as -> by (destruct k; check). cbn [bind].
  rewrite (start_diverges (fun d : dfa string unit => d_finished d = false /\ d_buffer d = to_tokens ["A"] /\ d_table d = t_actions t /\ In (d_top d) [0; 1; 3])); [reflexivity| |].
  - intros d (H1 & H2 & H3 & H4). split; auto. exists 1. unfold lookahead. rewrite H2. cbn [to_tokens map tk_ty travel]. rewrite H3.
    assert (nt_goes k (d_top d) = true) as G.
    { destruct H4 as [<-|[<-|[<-|[]]]]; destruct k; check. }
    unfold nt_goes in G. fold t in G. destruct (nth_error (t_actions t) (d_top d)) as [row|]; [|discriminate].
    destruct (bm_get "A" row) as [[n|n|A pr| |a b]|]; try discriminate.
    eexists. split; [reflexivity|]. cbn [dfa_goto fst d_finished d_buffer d_table d_top]. repeat split; auto.
    apply orb_prop in G as [G|G]; apply Nat.eqb_eq in G; subst n; simpl; auto.
  - cbn [dfa_new d_finished d_buffer d_table d_top]. repeat split; auto. now left.
Qed.

(** ** C24: the expected list of Slr misses legal tokens, and contains nonterminals *)
Definition miss := grammar_map [("Z", [["S"]]); ("S", [["A"; "x"]; ["d"; "A"; "y"]]); ("A", [["b"]; ["b"; "c"]])].
Definition miss_g := gof "Z" miss (calc_g true).
Lemma miss_gE dbg : grammar_new dbg "Z" miss "$" = Val miss_g. Proof. destruct dbg; check. Qed.
Definition miss_t k := tab k true 60 miss_g.
Lemma miss_makes k : makes k true miss_g (miss_t k). Proof. apply tab_makes. destruct k; check. Qed.
Lemma miss_clean k : conflicts (t_actions (miss_t k)) = []. Proof. destruct k; check. Qed.
Definition final_conf (k : method) (input : list string) : dfa string unit :=
  let d := dfa_new (to_tokens input) (t_actions (miss_t k)) (empty_map miss_g) "$" in
  match dfa_start 20 d with Val (d', _) => d' | _ => d end.
Lemma miss_fails : fails (miss_t SLR) (to_tokens ["b"; "y"]) (empty_map miss_g) (to_tokens ["y"]) (UnexpectedToken "y" ["x"]).
Proof.
  exists (dfa_new (to_tokens ["b"; "y"]) (t_actions (miss_t SLR)) (empty_map miss_g) "$"), (final_conf SLR ["b"; "y"]), 20. split; [check|]. split; check.
Qed.
Lemma miss_legal : sentence miss "Z" ["b"; "c"; "x"].
Proof. split; [|facts]. refine (chain_ok miss ltac:(facts) [["S"]; ["A"; "x"]; ["b"; "c"; "x"]] ["Z"] _). check. Qed.
Lemma miss_nonterminals k : fails (miss_t k) (to_tokens ["y"]) (empty_map miss_g) (to_tokens ["y"]) (UnexpectedToken "y" ["A"; "S"; "b"; "d"]).
Proof.
  exists (dfa_new (to_tokens ["y"]) (t_actions (miss_t k)) (empty_map miss_g) "$"), (final_conf k ["y"]), 20. destruct k; (split; [check|]); split; check.
Qed.
Lemma miss_A : nonterm miss "A". Proof. apply nonterm_b_true. check. Qed.

(** ** C17, C30 on the calculator *)
Lemma calc_start_ignored k : parses (calc_tab k) calc_input calc_maps (POk 6) /\
  exists f, bm_get "Z" calc_maps = Some [f] /\ forall its, f its >= 100.
Proof. split; [apply calc_parses|]. eexists. split; [check|]. intros its. cbn beta. lia. Qed.

Definition calc_d0 k : dfa string nat := dfa_new [] (t_actions (calc_tab k)) calc_maps "$".
Lemma calc_d0E k : parser_dfa (calc_tab k) [] calc_maps = Val (calc_d0 k). Proof. destruct k; check. Qed.
Lemma calc_dfa_panics k : dfa_parse 60 (calc_d0 k) calc_input = Panic P_underflow. Proof. destruct k; check. Qed.

(** ** statement-shaped summaries *)
Lemma tri_X : nonterm tri "X". Proof. apply nonterm_b_true. check. Qed.

Lemma left3_refutes : exists (rules : rulemap string) (start eof : string) (g : grammar string), wf_rules rules /\ start_fresh rules start /\ term rules eof /\
  (forall A i rhs, prod_at rules A i rhs -> rhs <> []) /\
  forall dbg, grammar_new dbg start rules eof = Val g /\ forall fuel, tabler_new dbg fuel g = Fuel.
Proof.
  exists left3, "Z", "$", left3_g. split; [facts|]. split; [facts|]. split; [facts|]. split; [change (noempty left3); facts|].
  intros dbg. split; [apply left3_gE|]. apply left3_diverges.
Qed.
Lemma right3_refutes : exists (rules : rulemap string) (start eof : string) (g : grammar string), wf_rules rules /\ start_fresh rules start /\ term rules eof /\
  (forall A i rhs, prod_at rules A i rhs -> rhs <> []) /\ no_left_cycle rules /\
  forall dbg, grammar_new dbg start rules eof = Val g /\ forall fuel, tabler_new dbg fuel g = Fuel.
Proof.
  exists right3, "Z", "$", right3_g. split; [facts|]. split; [facts|]. split; [facts|]. split; [change (noempty right3); facts|].
  split; [apply left_ok with (l := ["F"; "T"; "E"; "Z"]); [facts|check]|].
  intros dbg. split; [apply right3_gE|]. apply right3_diverges.
Qed.

Lemma empty_example : exists (rules : rulemap string) (g : grammar string),
  wf_rules rules /\ grammar_new true "Z" rules "$" = Val g /\ exists A i, prod_at rules A i [].
Proof.
  exists (grammar_map [("Z", [["A"; "x"]]); ("A", [["a"]; []])]). eexists. split; [facts|]. split; [check|].
  exists "A", 1. apply prod_ok; [facts|check].
Qed.

Lemma rec1_eof : term rec1 "$". Proof. facts. Qed.
Lemma rec2_eof : term rec2 "$". Proof. facts. Qed.
Lemma noin_ok rules x : wf_rules rules -> forallb (fun '(_, _, rhs) => negb (mem_b x rhs)) (prods rules) = true ->
  forall A i rhs, prod_at rules A i rhs -> ~ In x rhs.
Proof.
  intros W H A i rhs Hp Hi. apply (prods_in rules W) in Hp. rewrite forallb_forall in H. apply H in Hp. cbn in Hp.
  apply negb_true_iff in Hp. apply mem_b_in in Hi. congruence.
Qed.
Lemma rec2_meets : wf_rules rec2 /\ grammar_new true "S" rec2 "$" = Val rec2_g /\ makes CLR true rec2_g (rec2_t CLR) /\ term rec2 "$" /\
  (forall A i rhs, prod_at rec2 A i rhs -> ~ In "$" rhs) /\ ~ start_fresh rec2 "S" /\
  validates (rec2_t CLR) (to_tokens ["a"]) true /\ validates (rec2_t CLR) (to_tokens ["("; "a"]) false.
Proof.
  split; [facts|]. split; [apply rec2_gE|]. split; [apply rec2_makes|]. split; [facts|]. split; [apply noin_ok; [facts|check]|].
  split; [|split; [exists 20; check|apply rec2_clr_rejects]].
  intros H. apply (H "A" 1 ["("; "S"; ")"]); [apply prod_ok; [facts|check]|]. simpl. auto.
Qed.

Definition calc_conf (k : method) (n : nat) : dfa string nat := Nat.iter n next_conf (dfa_new calc_input (t_actions (calc_tab k)) calc_maps "$").
Lemma calc_reaches k : exists d, reaches (calc_tab k) calc_input calc_maps d /\ Forall (term calc) (map tk_ty calc_input) /\
  map tk_ty (d_items d) = ["+"; "E"] /\ List.length (d_buffer d) = 5.
Proof.
  exists (calc_conf k 4). split; [|split; [apply calc_input_terms|split; destruct k; check]].
  eapply reaches_round with (d := calc_conf k 3); [|split; [|exists 5]; destruct k; check].
  eapply reaches_round with (d := calc_conf k 2); [|split; [|exists 5]; destruct k; check].
  eapply reaches_round with (d := calc_conf k 1); [|split; [|exists 5]; destruct k; check].
  eapply reaches_round with (d := calc_conf k 0); [|split; [|exists 5]; destruct k; check].
  apply reaches_start. destruct k; check.
Qed.

Lemma calc_start_value : forall it, evals calc calc_maps "Z" calc_input it -> tk_item it <> 6.
Proof.
  intros it H. inversion H as [|A i rhs w its fs f Hp Hs Hf Hn E1 E2 E3]. subst.
  apply calc_single in Hp as ->. assert (bm_get "Z" calc_maps = Some [fun l => 100 + nth_val l 0]) as E by check.
  rewrite E in Hf. injection Hf as <-. injection Hn as <-. simpl. lia.
Qed.

Definition calc_maps_nostart : reductmap string nat :=
  bm_of_list [("E", [fun l => nth_val l 0 + nth_val l 2; fun l => nth_val l 0]);
              ("T", [fun l => nth_val l 0; fun l => nth_val l 1])].
Lemma calc_nostart_facts : (forall A, A <> "Z" -> bm_get A calc_maps = bm_get A calc_maps_nostart) /\ bm_get "Z" calc_maps_nostart = None /\
  forall k, parses (calc_tab k) calc_input calc_maps_nostart (POk 6).
Proof.
  split; [|split; [check|intros k; destruct k; exists 30; check]].
  intros A HA. change calc_maps with (bm_insert "Z" [fun l => 100 + nth_val l 0] calc_maps_nostart). rewrite bm_get_insert_neq; auto.
Qed.

Definition calc_maps_last : reductmap string nat :=
  bm_of_list [("Z", [fun l => match rev l with [] => 0 | t :: _ => tk_item t end]);
              ("E", [fun l => nth_val l 0 + nth_val l 2; fun l => nth_val l 0]);
              ("T", [fun l => nth_val l 0; fun l => nth_val l 1])].
Lemma calc_last_facts : (exists f, bm_get "Z" calc_maps_last = Some [f] /\ forall its it, f (its ++ [it])%list = tk_item it) /\
  forall k, parses (calc_tab k) calc_input calc_maps_last (POk 6).
Proof.
  split; [|intros k; destruct k; exists 30; check].
  exists (fun l => match rev l with [] => 0 | t :: _ => tk_item t end). split; [check|]. intros its it. now rewrite rev_unit.
Qed.

Lemma rec2_incomplete k : exists (rules : rulemap string) (start eof : string) (g : grammar string) (t : tabler string) (input : list (token string unit)),
  wf_rules rules /\ grammar_new true start rules eof = Val g /\ makes k true g t /\ term rules eof /\ conflicts (t_actions t) = [] /\
  sentence rules start (map tk_ty input) /\ validates t input false.
Proof.
  exists rec2, "S", "$", rec2_g, (rec2_t k), (to_tokens ["("; "a"; ")"]). split; [facts|]. split; [apply rec2_gE|]. split; [apply rec2_makes|].
  split; [facts|]. split; [apply rec2_clean|]. split; [apply rec2_sentence|apply rec2_rejects].
Qed.
Lemma two_incomplete k : exists (rules : rulemap string) (start eof : string) (g : grammar string) (t : tabler string) (input : list (token string unit)),
  wf_rules rules /\ grammar_new false start rules eof = Val g /\ makes k false g t /\ term rules eof /\ start_fresh rules start /\ conflicts (t_actions t) = [] /\
  sentence rules start (map tk_ty input) /\ validates t input false.
Proof.
  exists two, "Z", "$", two_g, (tab k false 60 two_g), (to_tokens ["b"]). split; [facts|]. split; [apply two_gE|]. split; [apply two_makes|].
  split; [facts|]. split; [facts|]. split; [apply two_clean|]. split; [apply two_sentence|apply two_rejects].
Qed.
Lemma two_false_alarm : exists (rules : rulemap string) (start eof : string) (g : grammar string) (used rest : list (token string unit)) (x : string) (es : list string),
  wf_rules rules /\ grammar_new false start rules eof = Val g /\ term rules eof /\
  (forall k, exists t maps, makes k false g t /\ covers rules maps /\ fails t (used ++ rest)%list maps rest (UnexpectedToken x es)) /\
  exists v, sentence rules start (map tk_ty used ++ x :: v)%list.
Proof.
  exists two, "Z", "$", two_g, [], (to_tokens ["b"]), "b", ["a"]. split; [facts|]. split; [apply two_gE|]. split; [facts|]. split.
  - intros k. exists (tab k false 60 two_g), (empty_map two_g). split; [apply two_makes|]. split; [apply covers_ok; [facts|check]|apply two_fails].
  - exists []. exact two_sentence.
Qed.
Lemma calc_sentence : sentence calc "Z" (map tk_ty calc_input).
Proof.
  split; [|apply calc_input_terms].
  refine (chain_ok calc ltac:(facts) [["E"]; ["E"; "+"; "T"]; ["T"; "+"; "T"]; ["n"; "+"; "T"]; ["n"; "+"; "("; "E"; ")"]; ["n"; "+"; "("; "E"; "+"; "T"; ")"];
    ["n"; "+"; "("; "T"; "+"; "T"; ")"]; ["n"; "+"; "("; "n"; "+"; "T"; ")"]; ["n"; "+"; "("; "n"; "+"; "n"; ")"]] ["Z"] _). check.
Qed.
Lemma calc_sentence2 : sentence calc "Z" ["n"; "+"; "n"].
Proof.
  split; [|facts]. refine (chain_ok calc ltac:(facts) [["E"]; ["E"; "+"; "T"]; ["T"; "+"; "T"]; ["n"; "+"; "T"]; ["n"; "+"; "n"]] ["Z"] _). check.
Qed.
Lemma lost_incomplete : exists (rules : rulemap string) (start eof : string) (g : grammar string) (t : method -> tabler string) (input : list (token string unit)),
  wf_rules rules /\ grammar_new true start rules eof = Val g /\ (forall k, makes k true g (t k)) /\ term rules eof /\ start_fresh rules start /\
  (forall k, conflicts (t_actions (t k)) = []) /\ sentence rules start (map tk_ty input) /\
  validates (t LALR) input false /\ validates (t CLR) input true /\ validates (t SLR) input true.
Proof.
  exists lost, "Z", "$", lost_g, lost_t, (to_tokens ["c"; "a"; "b"; "y"]). split; [facts|]. split; [apply lost_gE|]. split; [apply lost_makes|].
  split; [facts|]. split; [facts|]. split; [apply lost_clean|]. split; [apply lost_sentence|]. split; [apply lost_rejects|].
  split; apply lost_accepts; discriminate.
Qed.
Lemma calc_fails k : fails (calc_tab k) ([mkTok 1 "n"; mkTok 0 "+"] ++ [mkTok 0 "+"])%list calc_maps [mkTok 0 "+"] (UnexpectedToken "+" ["("; "T"; "n"]).
Proof.
  pose (d := dfa_new calc_bad (t_actions (calc_tab k)) calc_maps "$").
  exists d, (match dfa_start 20 d with Val (d', _) => d' | _ => d end), 20. destruct k; (split; [check|]); split; check.
Qed.
Lemma calc_exact : wf_rules calc /\ grammar_new true "Z" calc "$" = Val (calc_g true) /\ term calc "$" /\ start_fresh calc "Z" /\
  covers calc calc_maps /\ forall k, makes k true (calc_g true) (calc_tab k) /\ (k <> LALR \/ carries (calc_tab k)) /\ conflicts (t_actions (calc_tab k)) = [] /\
  parses (calc_tab k) calc_input calc_maps (POk 6) /\ validates (calc_tab k) (to_tokens (map tk_ty calc_bad)) false.
Proof.
  split; [exact calc_wf|]. split; [exact (calc_gE true)|]. split; [exact calc_eof|]. split; [exact calc_fresh|]. split; [exact calc_covers|].
  intros k. split; [apply calc_makes|]. split; [destruct k; [left|left|right; exact calc_carries]; discriminate|].
  split; [apply calc_clean|]. split; [apply calc_parses|]. exists 30. destruct k; check.
Qed.
Lemma cyc_ambiguous : exists (rules : rulemap string) (start eof : string) (g : grammar string) (w : list string) (t1 t2 : tree string),
  wf_rules rules /\ grammar_new true start rules eof = Val g /\ term rules eof /\
  (forall k, exists t, makes k true g t /\ conflicts (t_actions t) = []) /\
  tree_of rules start w t1 /\ tree_of rules start w t2 /\ t1 <> t2.
Proof.
  exists cyc, "S", "$", cyc_g, ["a"], (Node "S" 0 [Node "A" 0 [Leaf "a"]]), (Node "S" 0 [Node "A" 1 [Node "S" 0 [Node "A" 0 [Leaf "a"]]]]).
  split; [facts|]. split; [apply cyc_gE|]. split; [facts|].
  split; [intros k; exists (tab k true 60 cyc_g); split; [apply cyc_makes|apply cyc_clean]|].
  split; [exact cyc_tree1|]. split; [exact cyc_tree2|discriminate].
Qed.
Lemma calc_tree : exists t, tree_of calc "Z" ["n"; "+"; "n"] t.
Proof.
  pose (leaf := fun x (H : term calc x) => tree_leaf calc x H).
  assert (tree_of calc "T" ["n"] (Node "T" 0 [Leaf "n"])) as HT.
  { apply tree_node with ["n"]; [apply prod_ok; [facts|check]|]. apply (trees_cons calc "n" [] ["n"] []); [|constructor]. apply leaf; facts. }
  eexists. apply tree_node with ["E"]; [apply (prod_ok calc "Z" 0); [facts|check]|]. apply (trees_cons calc "E" [] ["n"; "+"; "n"] []); [|constructor].
  apply tree_node with ["E"; "+"; "T"]; [apply (prod_ok calc "E" 0); [facts|check]|].
  apply (trees_cons calc "E" ["+"; "T"] ["n"] ["+"; "n"]).
  - apply tree_node with ["T"]; [apply (prod_ok calc "E" 1); [facts|check]|]. apply (trees_cons calc "T" [] ["n"] []); [exact HT|constructor].
  - apply (trees_cons calc "+" ["T"] ["+"] ["n"]); [apply leaf; facts|]. apply (trees_cons calc "T" [] ["n"] []); [exact HT|constructor].
Qed.
Lemma miss_refutes : exists (rules : rulemap string) (start eof : string) (g : grammar string) (t : method -> tabler string) (maps : reductmap string unit),
  wf_rules rules /\ grammar_new true start rules eof = Val g /\ (forall k, makes k true g (t k)) /\ term rules eof /\ start_fresh rules start /\
  covers rules maps /\
  (exists used rest x es a v, fails (t SLR) (used ++ rest)%list maps rest (UnexpectedToken x es) /\ sentence rules start (map tk_ty used ++ a :: v)%list /\ ~ In a es) /\
  (exists used rest x es a, (forall k, fails (t k) (used ++ rest)%list maps rest (UnexpectedToken x es)) /\ In a es /\ nonterm rules a).
Proof.
  exists miss, "Z", "$", miss_g, miss_t, (empty_map miss_g). split; [facts|]. split; [apply miss_gE|]. split; [apply miss_makes|].
  split; [facts|]. split; [facts|]. split; [apply covers_ok; [facts|check]|]. split.
  - exists (to_tokens ["b"]), (to_tokens ["y"]), "y", ["x"], "c", ["x"]. split; [exact miss_fails|]. split; [exact miss_legal|].
    intros [E|[]]. discriminate.
  - exists [], (to_tokens ["y"]), "y", ["A"; "S"; "b"; "d"], "A". split; [exact miss_nonterminals|]. split; [now left|exact miss_A].
Qed.
