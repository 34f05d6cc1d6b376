(** Reading the Rust code [wop] writes for a grammar. *)
From Coq Require Import List Bool Arith Ascii String.
Import ListNotations.
Local Open Scope string_scope.
Local Open Scope list_scope.
Local Open Scope nat_scope.

Definition newline : ascii := ascii_of_nat 10.
Fixpoint lines (s : string) : list string :=
  match s with
  | "" => [""]
  | String c s' => if Ascii.eqb c newline then "" :: lines s' else match lines s' with [] => [String c ""] | l :: ls => String c l :: ls end
  end.
(** what follows the prefix [p] *)
Fixpoint after (p s : string) : option string :=
  match p, s with
  | "", _ => Some s
  | String a p', String c s' => if Ascii.eqb a c then after p' s' else None
  | _, "" => None
  end.
(** what precedes the first comma *)
Fixpoint before_comma (s : string) : string :=
  match s with
  | "" => ""
  | String c s' => if Ascii.eqb c "," then "" else String c (before_comma s')
  end.
(** the elements of [a, b, c, ]] *)
Fixpoint elements (s : string) : list string :=
  match s with
  | "" => []
  | String c s' =>
      if Ascii.eqb c "," then "" :: elements s'
      else if Ascii.eqb c " " then elements s'
      else if Ascii.eqb c "]" then []
      else match elements s' with [] => [] | e :: es => String c e :: es end
  end.
Definition tabs (n : nat) : string := String.concat "" (repeat (String (ascii_of_nat 9) "") n).
(** the rules inserted by the code: each [map.insert(name, ..] is followed by one line
    [vec![a, b, ],] per production *)
Fixpoint read_lines (ls : list string) : list (list string) * list (string * list (list string)) :=
  match ls with
  | [] => ([], [])
  | l :: ls' =>
      let '(ps, rs) := read_lines ls' in
      match after (tabs 1 ++ "map.insert(")%string l with
      | Some r => ([], (before_comma r, ps) :: rs)
      | None => match after (tabs 2 ++ "vec![")%string l with Some r => (elements r :: ps, rs) | None => (ps, rs) end
      end
  end.
Definition read_rules (s : string) : list (string * list (list string)) := snd (read_lines (lines s)).

(** without newlines, commas, blanks and closing brackets *)
Fixpoint plain_name (s : string) : bool :=
  match s with
  | "" => true
  | String c s' => negb (Ascii.eqb c newline || Ascii.eqb c "," || Ascii.eqb c " " || Ascii.eqb c "]") && plain_name s'
  end.
(** a Rust identifier *)
Definition ident_char (c : ascii) : bool :=
  let n := nat_of_ascii c in (48 <=? n) && (n <=? 57) || (65 <=? n) && (n <=? 90) || (97 <=? n) && (n <=? 122) || Ascii.eqb c "_".
Fixpoint all_chars (p : ascii -> bool) (s : string) : bool := match s with "" => true | String c s' => p c && all_chars p s' end.
