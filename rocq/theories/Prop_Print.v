(** C99-C101: wop's [main]: slicing the source, the places of the nodes, the printed tree *)
From Coq Require Import List Bool Arith Ascii String Permutation.
From Verif Require Import BTree Model Strings Wop WopSpec WopLex WopLexSpec WopText WopRun WopEx WopEx2 WopPrint WopPrintSpec WopPrintP WopFields WopCut WopPrintEx.
Import ListNotations.
Local Open Scope string_scope.
Local Open Scope list_scope.
Local Open Scope nat_scope.

(** ** C99: slicing *)
(** On a source in UTF-8, [main] slices only between characters: with the slices that panic it ends as without them.  The
    [text] the builder works with need only agree with slices that succeed; the others are never taken. *)
Theorem C99_slices : forall debug lg, by_chars lg -> forall order, iterates order -> forall iter, (forall l, Permutation (iter l) l) -> forall dbg src, utf8 src ->
  forall text, (forall s t, from_source src s = Val t -> text s = t) -> forall r, runs_main lg order iter dbg src r ->
  match r with
  | Val (o, s) => exists g items tree, parsed lg dbg src o (g :: items) /\ print_nested debug src g "" 0 = Val tree /\
      prints debug lg order iter text dbg src
        (Val (o, s, (map (fun t => ("""" ++ slice src (snd t) ++ """ (" ++ sym_name (fst t) ++ ") [" ++ digits (fst (snd t)) ++ ".." ++ digits (snd (snd t)) ++ "]")%string) (tokenize lg src), tree)))
  | Panic p => prints debug lg order iter text dbg src (Panic p)
  | Fuel => False
  end.
Proof. exact main_prints. Qed.
Print Assumptions C99_slices.
Example C99_example : forall dbg, (by_chars chars /\ utf8 accent_src /\ from_source accent_src (7, 11) = Panic P_index /\
  runs_main chars keep same dbg accent_src (Val (Ok, code_with dbg accent_src)) /\ contains (code_with dbg accent_src) "vec![cafés, ""ü"", ]") /\
  utf8 odd_src /\ runs_main chars keep same dbg odd_src
    (Val (Err (UnexpectedToken SymError [Assign; Pipe; OpenParen; CloseParen; Sc; PathAccess; TwoDots; Optional; Ident; StrLit; CodeBlock]), code_with dbg odd_src)).
Proof. exact (fun dbg => conj (accent_runs dbg) (odd_runs dbg)). Qed.

(** A slice of a source in UTF-8 succeeds exactly if it takes whole characters off between others, and gives these. *)
Theorem C99_exact : forall src i j t, utf8 src ->
  (from_source src (i, j) = Val t <-> exists a b, src = (a ++ t ++ b)%string /\ String.length a = i /\ i + String.length t = j /\ utf8 a /\ utf8 t /\ utf8 b).
Proof. exact slice_parts. Qed.
Print Assumptions C99_exact.
Example C99_exact_example : utf8 accent_src /\ from_source accent_src (7, 13) = Val "cafés" /\ from_source accent_src (7, 11) = Panic P_index /\ from_source accent_src (7, 6) = Panic P_index.
Proof. split; [exact (proj1 (proj2 (accent_runs true)))|]. repeat split. Qed.

(** ** C100: the places of the nodes *)
(** The trees left on the stack are made of the tokens read, one behind the other; each node reaches from its first token to its
    last.  After a successful run there is one tree, made of all tokens. *)
Theorem C100_places : forall lg dbg src, exists o items parts rest, parsed lg dbg src o items /\ tokenize lg src = List.concat parts ++ rest /\
  Forall2 located parts items /\ (o = Ok -> rest = [] /\ exists g, items = [g]).
Proof. exact parse_located. Qed.
Print Assumptions C100_places.
Example C100_example : forall dbg, parsed chars dbg accent_src Ok (items_of dbg accent_src) /\ map g_span (items_of dbg accent_src) = [(0, 32)] /\
  map g_span (flat_map children (items_of dbg accent_src)) = [(0, 30)] /\
  map (fun s => slice accent_src (g_span s)) (flat_map children (flat_map children (items_of dbg accent_src))) = ["cafés:x"; """ü"""].
Proof. exact accent_tree. Qed.

(** ** C101: the printed tree *)
(** [print_nested] prints a line with the symbol and the text of every node, each before what is in the node. *)
Theorem C101_printed : forall debug src g prefix lvl l, print_nested debug src g prefix lvl = Val l ->
  exists hs ls, walk g hs /\ (forall h, inside h g -> In h hs) /\ Forall2 (shows src) hs ls /\ picked ls l.
Proof. exact printed. Qed.
Print Assumptions C101_printed.
Example C101_example : forall dbg, exists g, items_of dbg accent_src = [g] /\ exists l, print_nested (fun s => s) accent_src g "" 0 = Val l /\
  nth_error l 5 = Some ("      - RuleItem: " ++ bright "cafés:x")%string /\ nth_error l 6 = Some ("        IdentPath: " ++ bright "cafés")%string.
Proof. exact accent_lines. Qed.
(** The lines about a node and what is in it stand together; those about the node itself give the places it refers to, and of an item
    of an alternative whether it is optional or cloned and its alias. *)
Theorem C101_fields : forall debug src g prefix lvl l h, print_nested debug src g prefix lvl = Val l -> inside h g ->
  exists n l1 m l2, l = l1 ++ m ++ l2 /\ tells debug src n h m.
Proof. exact print_tells. Qed.
Print Assumptions C101_fields.
Example C101_fields_example : forall dbg, exists g, items_of dbg accent_src = [g] /\ exists h i s, inside h g /\ g_ast h = ARuleItem i false (Some s) true /\ slice accent_src s = "x".
Proof. exact accent_item. Qed.
