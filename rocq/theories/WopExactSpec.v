(** Patterns, all names of which differ, whose statements compile: conditions on the pattern alone. *)
From Coq Require Import List Bool Arith String.
From Verif Require Import BTree Model Strings Wop WopSpec.
Import ListNotations.

(** not an optional group with an alias *)
Definition firm (p : pat) : bool :=
  match p with
  | PSym _ _ _ _ => true
  | PGroup _ o a _ => negb (o && is_some a)
  end.

(** a group has an alias, [p] itself or one inside it *)
Fixpoint grouped (p : pat) : bool :=
  match p with
  | PSym _ _ _ _ => false
  | PGroup vs _ a _ => is_some a || existsb (fun v => existsb grouped (fst v)) vs
  end.

(** in every group with aliases inside: there is one alternative only, and if the group is optional, it has an alias itself
    and no group inside it has *)
Fixpoint even (p : pat) : bool :=
  match p with
  | PSym _ _ _ _ => true
  | PGroup vs o a _ =>
      match flat_map (fun v => pipe_spans (fst v)) vs with
      | [] => true
      | _ => (List.length vs =? 1)%nat && (negb o || (is_some a && negb (existsb (fun v => existsb grouped (fst v)) vs)))
      end && forallb (fun v => forallb even (fst v)) vs
  end.

(** no production of the pipe is empty *)
Definition never_empty (ps : list pat) : Prop := forall w, picks ps w -> w <> [].

(** the same without any [&] before aliases *)
Fixpoint unref (p : pat) : pat :=
  match p with
  | PSym s o a _ => PSym s o a false
  | PGroup vs o a _ => PGroup (map (fun v => (map unref (fst v), snd v)) vs) o a false
  end.
Definition unref_decl (d : decl) : decl :=
  match d with
  | DRule name ty alts => DRule name ty (map (fun alt => (map unref (fst alt), snd alt)) alts)
  | d => d
  end.
