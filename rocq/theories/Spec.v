(** Specification vocabulary, independent of the generator and driver: context-free
    derivations, sentences, FIRST and FOLLOW, and bottom-up attribute evaluation.
    It refers to a grammar only through its rule map (which right-hand side a
    nonterminal has at which declaration index). *)
From Coq Require Import List Bool Arith.
From Verif Require Import BTree Model.
Import ListNotations.

Section Spec.
Context {T : Type} {OT : Ord T}.
Variable rules : rulemap T.

(** A rule map as built by [Rule::new] under its own name (what [grammar_map!] does). *)
Definition wf_rules : Prop :=
  msorted rules /\
  forall A r, bm_get A rules = Some r -> r_name r = A /\ exists l, r_prods r = enum_from 0 l.

(** [rhs] is the [i]-th declared right-hand side of [A] *)
Definition prod_at (A : T) (i : nat) (rhs : list T) : Prop :=
  exists r k, bm_get A rules = Some r /\ nth_error (r_prods r) i = Some (rhs, k).

Definition nonterm (A : T) : Prop := exists r, bm_get A rules = Some r.
Definition term (t : T) : Prop := ~ nonterm t.

(** one rewriting step, anywhere in the sentential form *)
Inductive rewrites : list T -> list T -> Prop :=
| rewrites_intro u A v i rhs : prod_at A i rhs -> rewrites (u ++ A :: v) (u ++ rhs ++ v).

Inductive derives : list T -> list T -> Prop :=
| derives_refl u : derives u u
| derives_step u v w : rewrites u v -> derives v w -> derives u w.

(** the sentences of the grammar with start symbol [S] *)
Definition sentence (S : T) (w : list T) : Prop := derives [S] w /\ Forall term w.

(** [t] can begin something derived from symbol [X] *)
Definition first_spec (X t : T) : Prop := term t /\ exists v, derives [X] (t :: v).

(** [t] can follow [A]: the textbook FOLLOW rules, without reference to reachability *)
Inductive follow_rules (S eof : T) : T -> T -> Prop :=
| fr_eof : follow_rules S eof S eof
| fr_first B i u A Y v t :
    prod_at B i (u ++ A :: Y :: v) -> nonterm A -> first_spec Y t -> follow_rules S eof A t
| fr_last B i u A t :
    prod_at B i (u ++ [A]) -> nonterm A -> follow_rules S eof B t -> follow_rules S eof A t.

(** [t] follows [A] in a sentential form of [S eof] *)
Definition follow_deriv (S eof : T) (A t : T) : Prop :=
  term t /\ exists u v, derives [S; eof] (u ++ A :: t :: v).

(** every nonterminal derives some terminal string *)
Definition productive : Prop := forall A, nonterm A -> exists w, derives [A] w /\ Forall term w.

(** every nonterminal occurs in some sentential form of [S] *)
Definition reachable (S : T) : Prop := forall A, nonterm A -> exists u v, derives [S] (u ++ A :: v).

(** [S] occurs in no right-hand side *)
Definition start_fresh (S : T) : Prop := forall A i rhs, prod_at A i rhs -> ~ In S rhs.

(** [w] is the beginning of a sentence *)
Definition viable (S : T) (w : list T) : Prop := exists v, sentence S (w ++ v).

(** ** Attribute evaluation *)
Section Values.
Context {M : Type}.
Variable maps : reductmap T M.

(** a reductor for every production *)
Definition covers : Prop :=
  forall A i rhs, prod_at A i rhs ->
  exists fs f, bm_get A maps = Some fs /\ nth_error fs i = Some f.

(** [evals X w it]: symbol [X] matches the tokens [w] and its value token is [it],
    obtained by applying the [i]-th reductor of a rule to the value tokens of the
    symbols of its [i]-th right-hand side, in order. *)
Inductive evals : T -> list (token T M) -> token T M -> Prop :=
| evals_tok tok : term (tk_ty tok) -> evals (tk_ty tok) [tok] tok
| evals_rule A i rhs w its fs f :
    prod_at A i rhs -> evals_seq rhs w its ->
    bm_get A maps = Some fs -> nth_error fs i = Some f ->
    evals A w (mkTok (f its) A)
with evals_seq : list T -> list (token T M) -> list (token T M) -> Prop :=
| evals_nil : evals_seq [] [] []
| evals_cons X Xs w1 w2 it its :
    evals X w1 it -> evals_seq Xs w2 its -> evals_seq (X :: Xs) (w1 ++ w2) (it :: its).
End Values.

(** ** Parse trees *)
Inductive tree := Leaf (t : T) | Node (A : T) (i : nat) (cs : list tree).

(** [tree_of X w t]: [t] is a parse tree with root [X] and yield [w] *)
Inductive tree_of : T -> list T -> tree -> Prop :=
| tree_leaf t : term t -> tree_of t [t] (Leaf t)
| tree_node A i rhs w cs : prod_at A i rhs -> trees_of rhs w cs -> tree_of A w (Node A i cs)
with trees_of : list T -> list T -> list tree -> Prop :=
| trees_nil : trees_of [] [] []
| trees_cons X Xs w1 w2 t ts :
    tree_of X w1 t -> trees_of Xs w2 ts -> trees_of (X :: Xs) (w1 ++ w2) (t :: ts).

End Spec.

Scheme evals_ind2 := Minimality for evals Sort Prop
  with evals_seq_ind2 := Minimality for evals_seq Sort Prop.
Combined Scheme evals_mut from evals_ind2, evals_seq_ind2.
Scheme tree_of_ind2 := Minimality for tree_of Sort Prop
  with trees_of_ind2 := Minimality for trees_of Sort Prop.
Combined Scheme tree_of_mut from tree_of_ind2, trees_of_ind2.
Arguments tree : clear implicits.
