(** Examples for C95 to C98 *)
From Coq Require Import List Bool Arith Ascii String.
From Verif Require Import BTree Model Show Strings Spec SpecP Interface Wrap Check Examples Refute2 Trace TraceSpec Binary BinarySpec BinaryP.
Import ListNotations.
Local Open Scope string_scope.
Local Open Scope list_scope.
Local Notation length := List.length.

Lemma trace_ex {X D O} (r : res (X * D * O)) l o : match r with Val (l', _, o') => Some (l', o') | _ => None end = Some (l, o) -> exists d', r = Val (l, d', o).
Proof. destruct r as [[[l' d'] o']| |]; try discriminate. intros [= -> ->]. eauto. Qed.

Definition calc_seen : list (list string * list string) :=
  [(["E"], []);
   (["E"; "+"; "T"], []);
   (["E"; "+"; "("; "E"; ")"], []);
   (["E"; "+"; "("; "E"], [")"]);
   (["E"; "+"; "("; "E"; "+"; "T"], [")"]);
   (["E"; "+"; "("; "E"; "+"; "n"], [")"]);
   (["E"; "+"; "("; "E"; "+"], ["n"; ")"]);
   (["E"; "+"; "("; "E"], ["+"; "n"; ")"]);
   (["E"; "+"; "("; "T"], ["+"; "n"; ")"]);
   (["E"; "+"; "("; "n"], ["+"; "n"; ")"]);
   (["E"; "+"; "("], ["n"; "+"; "n"; ")"]);
   (["E"; "+"], ["("; "n"; "+"; "n"; ")"]);
   (["E"], ["+"; "("; "n"; "+"; "n"; ")"]);
   (["T"], ["+"; "("; "n"; "+"; "n"; ")"]);
   (["n"], ["+"; "("; "n"; "+"; "n"; ")"]);
   ([], ["n"; "+"; "("; "n"; "+"; "n"; ")"])].

Lemma calc_observed k : parser_dfa (calc_tab k) calc_input calc_maps = Val (calc_dstart k) /\
  exists d', dfa_trace_with (looking (fun l d => shown d :: l)) 40 [] (calc_dstart k) = Val (calc_seen, d', Ok).
Proof. split; [destruct k; check|]. apply trace_ex. destruct k; check. Qed.

Lemma calc_counted k : parser_dfa (calc_tab k) calc_input calc_maps = Val (calc_dstart k) /\
  exists d', dfa_trace_with (looking (fun n _ => S n)) 40 0 (calc_dstart k) = Val (16, d', Ok).
Proof. split; [destruct k; check|]. apply trace_ex. destruct k; check. Qed.

(** n + + is rejected *)
Definition bad_rows : list (proc_row string) :=
  match print_proc_dfa 40 (dfa_new calc_bad (t_actions (calc_tab LALR)) calc_maps "$") with Val (rows, _, _) => rows | _ => [] end.
Lemma calc_bad_rows : map (fun r => (r_step r, r_buffer r, match r_action r with Some _ => true | None => false end)) bad_rows =
    [(1, ["n"; "+"; "+"; "$"], true); (2, ["+"; "+"; "$"], true); (3, ["+"; "+"; "$"], true); (4, ["+"; "+"; "$"], true); (5, ["+"; "$"], false)] /\
  map (fun r => length (r_stack r)) bad_rows = [1; 3; 3; 3; 5].
Proof. split; check. Qed.
Lemma calc_bad_shown : parser_dfa (calc_tab LALR) calc_bad calc_maps = Val (dfa_new calc_bad (t_actions (calc_tab LALR)) calc_maps "$") /\
  exists d', print_proc_dfa 40 (dfa_new calc_bad (t_actions (calc_tab LALR)) calc_maps "$") = Val (bad_rows, d', Err (UnexpectedToken "+" ["("; "T"; "n"])).
Proof. split; [check|]. apply trace_ex. check. Qed.

(** the binary *)
Definition line (s : string) : list ascii := list_ascii_of_string s.
Definition said (dbg : bool) (lines : list string) : res (list (res (nat * outcome string))) :=
  do '(t, _) <- main_setup dbg 80;
  Val (map (fun s => do '(rows, o) <- main_line 100 t (line s); Val (length rows, o)) lines).
Lemma main_example dbg : said dbg ["  ([{}]) "; "()()"; ""; "(x)"] =
  Val [Val (10, Ok); Val (3, Err (UnexpectedToken "(" ["$"; ")"; "]"; "}"])); Val (1, Err (UnexpectedToken "$" ["("; "S"; "["; "{"])); Panic P_expect].
Proof. destruct dbg; vm_compute; reflexivity. Qed.
