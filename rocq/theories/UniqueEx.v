(** Grammars for C118. *)
From Coq Require Import List Bool Arith String.
From Verif Require Import BTree Model Strings Spec SpecP Interface Check Examples Refute.
Import ListNotations.
Local Open Scope string_scope.
Local Open Scope list_scope.

(** ** checking a parse tree: its yield, if it is one *)
Section Yield.
Context {T : Type} {OT : Ord T}.
Variable rules : rulemap T.

Fixpoint yield (t : tree T) (X : T) : option (list T) :=
  match t with
  | Leaf x => if eqb X x && negb (nonterm_b rules x) then Some [x] else None
  | Node A i cs =>
      match (if eqb X A then bm_get A rules else None) with
      | None => None
      | Some r =>
          match nth_error (r_prods r) i with
          | None => None
          | Some (rhs, _) =>
              (fix go cs rhs := match cs, rhs with
               | [], [] => Some []
               | c :: cs, Y :: rhs => match yield c Y, go cs rhs with Some u, Some v => Some (u ++ v) | _, _ => None end
               | _, _ => None
               end) cs rhs
          end
      end
  end.

Lemma yield_ok : forall t X w, yield t X = Some w -> tree_of rules X w t.
Proof.
  fix IH 1. intros [x|A i cs] X w E; cbn [yield] in E.
  - destruct (eqb_spec X x) as [->|]; [|discriminate]. destruct (nonterm_b rules x) eqn:En; [discriminate|]. injection E as <-.
    constructor. now apply nonterm_b_false.
  - destruct (eqb_spec X A) as [->|]; [|discriminate]. destruct (bm_get A rules) as [r|] eqn:Er; [|discriminate].
    destruct (nth_error (r_prods r) i) as [[rhs k]|] eqn:Ei; [|discriminate].
    apply (tree_node rules A i rhs); [exists r, k; auto|]. clear Ei. revert rhs w E. induction cs as [|c cs IHc]; intros [|Y rhs] w E; try discriminate.
    + injection E as <-. constructor.
    + destruct (yield c Y) as [u|] eqn:E1; [|discriminate].
      match goal with H : match ?m with _ => _ end = _ |- _ => destruct m as [v|] eqn:E2 end; [|discriminate].
      injection E as <-. constructor; [now apply IH|now apply IHc].
Qed.
End Yield.

(** ** sums that do not say where to begin *)
Definition plus := grammar_map [("Z", [["E"]]); ("E", [["E"; "+"; "E"]; ["n"]])].
Definition plus_g := gof "Z" plus (calc_g true).
Lemma plus_gE dbg : grammar_new dbg "Z" plus "$" = Val plus_g. Proof. destruct dbg; check. Qed.
Definition plus_t k := tab k true 60 plus_g.
Lemma plus_makes k : makes k true plus_g (plus_t k). Proof. apply tab_makes. destruct k; check. Qed.
Lemma plus_conflicts k : conflicts (t_actions (plus_t k)) = [Conflict (Shift 3) (Reduce "E" (["E"; "+"; "E"], 0))]. Proof. destruct k; check. Qed.
Lemma plus_accepts k : validates (plus_t k) (to_tokens ["n"; "+"; "n"]) true. Proof. exists 40. destruct k; check. Qed.

Definition num := Node "E" 1 [Leaf "n"].
Definition sum l r := Node "E" 0 [l; Leaf "+"; r].
Definition plus_left := Node "Z" 0 [sum (sum num num) num].
Definition plus_right := Node "Z" 0 [sum num (sum num num)].
Lemma plus_two : tree_of plus "Z" ["n"; "+"; "n"; "+"; "n"] plus_left /\ tree_of plus "Z" ["n"; "+"; "n"; "+"; "n"] plus_right /\ plus_left <> plus_right.
Proof. split; [apply yield_ok; check|]. split; [apply yield_ok; check|discriminate]. Qed.

(** ** Lalr drops the lookahead that would show the conflict *)
Definition hidden := grammar_map [("Z", [["S"]]); ("S", [["A"; "x"]; ["D"]; ["c"; "A"; "y"]; ["c"; "D"]]); ("A", [["a"; "B"]]); ("B", [["b"]]); ("D", [["a"; "b"; "y"]])].
Definition hidden_g := gof "Z" hidden (calc_g true).
Lemma hidden_gE dbg : grammar_new dbg "Z" hidden "$" = Val hidden_g. Proof. destruct dbg; check. Qed.
Definition hidden_t k := tab k true 60 hidden_g.
Lemma hidden_makes k : makes k true hidden_g (hidden_t k). Proof. apply tab_makes. destruct k; check. Qed.
Lemma hidden_clean : conflicts (t_actions (hidden_t LALR)) = []. Proof. check. Qed.
Lemma hidden_accepts : validates (hidden_t LALR) (to_tokens ["c"; "a"; "b"; "y"]) true. Proof. exists 40. check. Qed.
Definition hidden_short := Node "Z" 0 [Node "S" 2 [Leaf "c"; Node "A" 0 [Leaf "a"; Node "B" 0 [Leaf "b"]]; Leaf "y"]].
Definition hidden_long := Node "Z" 0 [Node "S" 3 [Leaf "c"; Node "D" 0 [Leaf "a"; Leaf "b"; Leaf "y"]]].
Lemma hidden_two : tree_of hidden "Z" ["c"; "a"; "b"; "y"] hidden_short /\ tree_of hidden "Z" ["c"; "a"; "b"; "y"] hidden_long /\ hidden_short <> hidden_long.
Proof. split; [apply yield_ok; check|]. split; [apply yield_ok; check|discriminate]. Qed.

Lemma plus_covers : covers plus (empty_map plus_g). Proof. apply covers_ok; [apply grammar_map_wf|check]. Qed.
