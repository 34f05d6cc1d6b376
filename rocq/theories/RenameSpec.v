(** Two grammars that differ in the names of the symbols, in the order the symbols have and in the
    order of the alternatives of each rule. *)
From Coq Require Import List.
From Verif Require Import BTree Model Spec.
Import ListNotations.

Section RenameSpec.
Context {T1 T2 : Type} {O1 : Ord T1} {O2 : Ord T2}.

(** Symbol [x] of the first grammar is called [f x] in the second, and its [i]-th alternative is the
    [m x i]-th there. *)
Record renames (f : T1 -> T2) (m : T1 -> nat -> nat) (rules1 : rulemap T1) (rules2 : rulemap T2) : Prop := {
  rn_inj : forall x y, f x = f y -> x = y;
  rn_nonterm : forall A, nonterm rules1 A -> nonterm rules2 (f A);
  rn_nonterm_back : forall B, nonterm rules2 B -> exists A, B = f A /\ nonterm rules1 A;
  rn_prod : forall A i rhs, prod_at rules1 A i rhs -> prod_at rules2 (f A) (m A i) (map f rhs);
  rn_prod_back : forall A j rhs', prod_at rules2 (f A) j rhs' -> exists i rhs, j = m A i /\ rhs' = map f rhs /\ prod_at rules1 A i rhs;
  rn_index : forall A i j rhs rhs', prod_at rules1 A i rhs -> prod_at rules1 A j rhs' -> m A i = m A j -> i = j
}.

(** a token under its new name *)
Definition retok {M} (f : T1 -> T2) (t : token T1 M) : token T2 M := mkTok (tk_item t) (f (tk_ty t)).

(** corresponding productions have reductors that compute the same *)
Definition same_reductors {M} (f : T1 -> T2) (m : T1 -> nat -> nat) (rules1 : rulemap T1) (maps1 : reductmap T1 M) (maps2 : reductmap T2 M) : Prop :=
  forall A i rhs, prod_at rules1 A i rhs -> exists fs1 h1 fs2 h2,
  bm_get A maps1 = Some fs1 /\ nth_error fs1 i = Some h1 /\ bm_get (f A) maps2 = Some fs2 /\ nth_error fs2 (m A i) = Some h2 /\
  forall its, h2 (map (retok f) its) = h1 its.

(** the same error under the new names; of a conflict only that there is one *)
Inductive renamed_error (f : T1 -> T2) : error T1 -> error T2 -> Prop :=
| rename_token x es es' : (forall y, In y es' <-> exists z, y = f z /\ In z es) -> renamed_error f (UnexpectedToken x es) (UnexpectedToken (f x) es')
| rename_eof : renamed_error f UnexpectedEof UnexpectedEof
| rename_conflict a b a' b' : renamed_error f (ConflictErr a b) (ConflictErr a' b')
| rename_missing : renamed_error f MissingPreviousState MissingPreviousState
| rename_incomplete : renamed_error f IncompleteExec IncompleteExec.
(** the same answer under the new names *)
Inductive renamed_result {M} (f : T1 -> T2) : presult T1 M -> presult T2 M -> Prop :=
| rename_value v : renamed_result f (POk v) (POk v)
| rename_err e e' : renamed_error f e e' -> renamed_result f (PErr e) (PErr e').
End RenameSpec.
