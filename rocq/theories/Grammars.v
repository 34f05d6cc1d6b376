(** The repository's test grammars and inputs (/repo/grammars_tests.rs),
    transcribed, and the repository's own unit tests replayed on the model.
    These are tests of the model, not proofs of properties. *)
From Coq Require Import List Bool Arith String.
From Verif Require Import BTree Model Strings.
Import ListNotations.
Local Open Scope string_scope.

Definition dragon_book_rules : list (string * list (list string)) :=
  [("S", [["C"; "C"]]);
   ("C", [["c"; "C"]; ["d"]])].
Definition dragon_book (dbg : bool) := grammar_new dbg "S" (grammar_map dragon_book_rules) "$".

Definition serokell_rules : list (string * list (list string)) :=
  [("Start", [["Add"]]);
   ("Add", [["Add"; "+"; "Factor"]; ["Factor"]]);
   ("Factor", [["Factor"; "*"; "Term"]; ["Term"]]);
   ("Term", [["("; "Add"; ")"]; ["int"]; ["ident"]])].
Definition serokell (dbg : bool) := grammar_new dbg "Start" (grammar_map serokell_rules) "$".

Definition ucalgary_uni_oth_lr1_rules : list (string * list (list string)) :=
  [("S", [["E"]]);
   ("E", [["d"; "D"]; ["D"]; ["F"]]);
   ("F", [["e"; "C"]; ["C"]]);
   ("D", [["d"; "e"; "B"; "b"]; ["e"; "A"; "c"]]);
   ("C", [["e"; "d"; "B"; "c"]; ["d"; "A"; "b"]]);
   ("B", [["a"]]);
   ("A", [["a"]])].
Definition ucalgary_uni_oth_lr1 (dbg : bool) := grammar_new dbg "S" (grammar_map ucalgary_uni_oth_lr1_rules) "$".

Definition wikipedia_rules : list (string * list (list string)) :=
  [("S", [["E"]]);
   ("E", [["E"; "*"; "B"]; ["E"; "+"; "B"]; ["B"]]);
   ("B", [["0"]; ["1"]])].
Definition wikipedia (dbg : bool) := grammar_new dbg "S" (grammar_map wikipedia_rules) "$".

Definition puncs_rules : list (string * list (list string)) :=
  [("S'", [["S"]]);
   ("S", [["("; ")"]; ["("; "S"; ")"]; ["["; "]"]; ["["; "S"; "]"]; ["{"; "}"]; ["{"; "S"; "}"]])].
Definition puncs (dbg : bool) := grammar_new dbg "S'" (grammar_map puncs_rules) "$".

Definition scanner_rules : list (string * list (list string)) :=
  [("S", [["Phrase"]]);
   ("Phrase", [["Item"; "Space"; "Phrase"]; ["Item"]]);
   ("Item", [["Word"]; ["Num"]]);
   ("Word", [["Alpha"; "Word"]; ["Alpha"]]);
   ("Num", [["Digit"; "Num"]; ["Digit"]]);
   ("Alpha", [["a"]; ["b"]; ["c"]; ["d"]; ["e"]; ["f"]; ["g"]; ["h"]; ["i"]; ["j"]; ["k"]; ["l"]; ["m"]; ["n"]; ["o"]; ["p"]; ["q"]; ["r"]; ["t"]; ["s"]; ["u"]; ["v"]; ["w"]; ["x"]; ["y"]; ["z"]]);
   ("Digit", [["0"]; ["1"]; ["2"]; ["3"]; ["4"]; ["5"]; ["6"]; ["7"]; ["8"]; ["9"]]);
   ("Space", [["_"]])].
Definition scanner (dbg : bool) := grammar_new dbg "S" (grammar_map scanner_rules) "$".

Definition dragon_book_inputs : list (list string) :=
  [["d"; "d"];
   ["d"; "c"; "d"];
   ["c"; "d"; "d"];
   ["d"; "c"; "c"; "d"];
   ["c"; "d"; "c"; "d"];
   ["c"; "c"; "d"; "d"];
   ["d"; "c"; "c"; "c"; "d"];
   ["c"; "d"; "c"; "c"; "d"];
   ["c"; "c"; "d"; "c"; "d"];
   ["c"; "c"; "c"; "d"; "d"];
   ["d"; "c"; "c"; "c"; "c"; "d"];
   ["c"; "d"; "c"; "c"; "c"; "d"];
   ["c"; "c"; "d"; "c"; "c"; "d"];
   ["c"; "c"; "c"; "d"; "c"; "d"];
   ["c"; "c"; "c"; "c"; "d"; "d"];
   ["d"; "c"; "c"; "c"; "c"; "c"; "d"];
   ["c"; "d"; "c"; "c"; "c"; "c"; "d"];
   ["c"; "c"; "d"; "c"; "c"; "c"; "d"];
   ["c"; "c"; "c"; "d"; "c"; "c"; "d"];
   ["c"; "c"; "c"; "c"; "d"; "c"; "d"];
   ["c"; "c"; "c"; "c"; "c"; "d"; "d"];
   ["d"; "c"; "c"; "c"; "c"; "c"; "c"; "c"; "c"; "d"];
   ["c"; "d"; "c"; "c"; "c"; "c"; "c"; "c"; "c"; "d"];
   ["c"; "c"; "d"; "c"; "c"; "c"; "c"; "c"; "c"; "d"];
   ["c"; "c"; "c"; "d"; "c"; "c"; "c"; "c"; "c"; "d"];
   ["c"; "c"; "c"; "c"; "c"; "c"; "d"; "c"; "c"; "d"];
   ["c"; "c"; "c"; "c"; "c"; "c"; "c"; "d"; "c"; "d"];
   ["c"; "c"; "c"; "c"; "c"; "c"; "c"; "c"; "d"; "d"];
   ["d"; "c"; "c"; "c"; "c"; "c"; "c"; "c"; "d"];
   ["c"; "d"; "c"; "c"; "c"; "c"; "c"; "c"; "d"]].

Definition serokell_inputs : list (list string) :=
  [["int"];
   ["int"; "*"; "int"];
   ["ident"; "*"; "int"];
   ["("; "int"; ")"];
   ["int"; "+"; "int"];
   ["ident"; "+"; "int"];
   ["int"; "*"; "int"; "*"; "int"];
   ["int"; "*"; "ident"; "*"; "int"];
   ["ident"; "*"; "int"; "*"; "int"];
   ["ident"; "*"; "ident"; "*"; "int"];
   ["int"; "*"; "("; "int"; ")"];
   ["ident"; "*"; "("; "int"; ")"];
   ["int"; "*"; "int"; "+"; "int"];
   ["int"; "*"; "("; "ident"; "+"; "int"; ")"];
   ["ident"; "*"; "int"; "+"; "int"];
   ["("; "("; "("; "("; "("; "("; "("; "("; "("; "("; "("; "("; "("; "("; "("; "("; "("; "("; "("; "("; "("; "("; "int"; ")"; ")"; ")"; ")"; ")"; ")"; ")"; ")"; ")"; ")"; ")"; ")"; ")"; ")"; ")"; ")"; ")"; ")"; ")"; ")"; ")"; ")"]].

Definition non_lalr_ucalgary_uni_oth_lr1_inputs : list (list string) :=
  [["d"; "e"; "a"; "c"];
   ["d"; "e"; "a"; "b"];
   ["e"; "d"; "a"; "b"];
   ["e"; "d"; "a"; "c"]].

Definition non_slr_ucalgary_uni_oth_lr1_inputs : list (list string) :=
  [["d"; "e"; "a"; "c"];
   ["d"; "e"; "a"; "b"];
   ["e"; "d"; "a"; "b"];
   ["e"; "d"; "a"; "c"]].

Definition ucalgary_uni_oth_lr1_inputs : list (list string) :=
  [["e"; "a"; "c"];
   ["d"; "a"; "b"];
   ["d"; "e"; "a"; "c"];
   ["d"; "e"; "a"; "b"];
   ["e"; "d"; "a"; "b"];
   ["e"; "d"; "a"; "c"];
   ["d"; "d"; "e"; "a"; "b"];
   ["e"; "e"; "d"; "a"; "c"]].

Definition wikipedia_inputs : list (list string) :=
  [["0"];
   ["1"];
   ["0"; "*"; "0"];
   ["0"; "*"; "1"];
   ["1"; "*"; "0"];
   ["1"; "*"; "1"];
   ["0"; "+"; "0"];
   ["0"; "+"; "1"];
   ["1"; "+"; "0"];
   ["1"; "+"; "1"];
   ["0"; "*"; "0"; "*"; "0"];
   ["0"; "*"; "0"; "*"; "1"];
   ["0"; "*"; "1"; "*"; "0"];
   ["0"; "*"; "1"; "*"; "1"];
   ["1"; "*"; "0"; "*"; "0"];
   ["1"; "*"; "0"; "*"; "1"];
   ["1"; "*"; "1"; "*"; "0"];
   ["1"; "*"; "1"; "*"; "1"];
   ["0"; "+"; "0"; "*"; "0"];
   ["0"; "+"; "0"; "*"; "1"];
   ["0"; "+"; "1"; "*"; "0"];
   ["0"; "+"; "1"; "*"; "1"];
   ["1"; "+"; "0"; "*"; "0"];
   ["1"; "+"; "0"; "*"; "1"];
   ["1"; "+"; "1"; "*"; "0"];
   ["1"; "+"; "1"; "*"; "1"];
   ["0"; "*"; "0"; "+"; "0"];
   ["0"; "*"; "0"; "+"; "1"];
   ["0"; "*"; "1"; "+"; "0"];
   ["0"; "*"; "1"; "+"; "1"]].

Definition puncs_inputs : list (list string) :=
  [["("; ")"];
   ["["; "]"];
   ["{"; "}"];
   ["("; "("; ")"; ")"];
   ["("; "["; "]"; ")"];
   ["("; "{"; "}"; ")"];
   ["["; "("; ")"; "]"];
   ["["; "["; "]"; "]"];
   ["["; "{"; "}"; "]"];
   ["{"; "("; ")"; "}"];
   ["{"; "["; "]"; "}"];
   ["{"; "{"; "}"; "}"];
   ["("; "("; "("; ")"; ")"; ")"];
   ["("; "("; "["; "]"; ")"; ")"];
   ["("; "("; "{"; "}"; ")"; ")"];
   ["("; "["; "("; ")"; "]"; ")"];
   ["("; "["; "["; "]"; "]"; ")"];
   ["("; "["; "{"; "}"; "]"; ")"];
   ["("; "{"; "("; ")"; "}"; ")"];
   ["("; "{"; "["; "]"; "}"; ")"];
   ["("; "{"; "{"; "}"; "}"; ")"];
   ["["; "("; "("; ")"; ")"; "]"];
   ["["; "("; "["; "]"; ")"; "]"];
   ["["; "("; "{"; "}"; ")"; "]"];
   ["["; "["; "("; ")"; "]"; "]"];
   ["["; "["; "["; "]"; "]"; "]"];
   ["["; "["; "{"; "}"; "]"; "]"];
   ["["; "{"; "("; ")"; "}"; "]"];
   ["["; "{"; "["; "]"; "}"; "]"];
   ["["; "{"; "{"; "}"; "}"; "]"]].

Definition scanner_inputs : list (list string) :=
  [["l"; "o"; "r"; "e"; "m"; "_"; "i"; "p"; "s"; "u"; "m"; "_"; "d"; "o"; "l"; "o"; "r"; "_"; "s"; "i"; "t"; "_"; "a"; "m"; "e"; "t"];
   ["i"; "n"; "_"; "v"; "i"; "n"; "o"; "_"; "v"; "e"; "r"; "i"; "t"; "a"; "s"; "_"; "b"; "e"; "f"; "o"; "r"; "e"; "_"; "7"; "9"; "_"; "a"; "c"];
   ["1"; "2"; "_"; "t"; "i"; "m"; "e"; "s"; "_"; "3"; "_"; "i"; "s"; "_"; "e"; "q"; "u"; "a"; "l"; "_"; "t"; "o"; "_"; "4"; "0"; "_"; "m"; "i"; "n"; "u"; "s"; "_"; "4"];
   ["0"; "1"; "2"; "3"; "4"; "5"; "6"; "7"; "8"; "9"];
   ["f"; "i"; "n"; "a"; "l"; "_"; "d"; "e"; "_"; "s"; "e"; "m"; "a"; "n"; "a"; "_"; "e"; "l"; "a"; "_"; "v"; "a"; "i"; "_"; "p"; "r"; "a"; "_"; "r"; "u"; "a"]].

Definition run_slr dbg fuel (g : res (grammar string)) := do g <- g; slr_new dbg fuel g.
Definition run_clr dbg fuel (g : res (grammar string)) := do g <- g; clr_new dbg fuel g.
Definition run_lalr dbg fuel (g : res (grammar string)) := do g <- g; do t <- lalr_new dbg fuel g; Val (fst t).
Definition nconf (t : res (tabler string)) := do t <- t; Val (List.length (conflicts (t_actions t))).
Definition vals (fuel : nat) (t : res (tabler string)) (ins : list (list string)) : list (res bool) :=
  map (fun i => do t <- t; validate fuel t (to_tokens i)) ins.
Definition allv (b : bool) (l : list (res bool)) : bool :=
  forallb (fun r => match r with Val x => Bool.eqb x b | _ => false end) l.
