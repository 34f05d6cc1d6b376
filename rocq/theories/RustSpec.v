(** A small part of Rust, enough for the functions wop writes: [let], assignment, [Some], [None], references, indexing,
    ranges, [clone] and [to_vec]; and the items of the blocks holding them.  Written from the language, not from wop.
    Names are ASCII; there are no comments, strings or character literals. *)
From Coq Require Import List Bool Arith Ascii String.
From Verif Require Import BTree Model Spec Strings Wop WopSpec WopTextSpec.
Import ListNotations.
Local Open Scope string_scope.
Local Open Scope list_scope.
Local Open Scope nat_scope.

(** ** Tokens *)
Inductive rtok := RId (s : string) | RKey (s : string) | RNum (n : nat) | RSym (c : ascii).
(** the keywords, and the two constructors used *)
Definition keyword (s : string) : bool := existsb (String.eqb s)
  ["as"; "break"; "const"; "continue"; "crate"; "else"; "enum"; "extern"; "false"; "fn"; "for"; "if"; "impl"; "in"; "let"; "loop"; "match"; "mod";
   "move"; "mut"; "pub"; "ref"; "return"; "self"; "Self"; "static"; "struct"; "super"; "trait"; "true"; "type"; "unsafe"; "use"; "where"; "while";
   "async"; "await"; "dyn"; "abstract"; "become"; "box"; "do"; "final"; "macro"; "override"; "priv"; "typeof"; "unsized"; "virtual"; "yield"; "try"; "_"; "Some"; "None"].
Definition is_digit (c : ascii) : bool := (48 <=? nat_of_ascii c) && (nat_of_ascii c <=? 57).
Fixpoint number (n : nat) (s : string) : nat := match s with "" => n | String c s' => number (10 * n + (nat_of_ascii c - 48)) s' end.
(** a run of word characters *)
Definition word_tok (w : string) : list rtok :=
  match w with "" => [] | String c _ => [if is_digit c then RNum (number 0 w) else if keyword w then RKey w else RId w] end.
Definition is_blank (c : ascii) : bool := existsb (Nat.eqb (nat_of_ascii c)) [9; 10; 13; 32].
(** [w] is the word read so far *)
Fixpoint rlex (w s : string) : list rtok :=
  match s with
  | "" => word_tok w
  | String c s' =>
      if ident_char c then rlex (w ++ String c "")%string s'
      else word_tok w ++ (if is_blank c then [] else [RSym c]) ++ rlex "" s'
  end.
(** a name that can be bound *)
Definition is_name (s : string) : bool :=
  match s with "" => false | String c _ => negb (is_digit c) end && all_chars ident_char s && negb (keyword s).

(** ** Syntax of statements *)
Inductive expr :=
| EVar (x : string) | ENone | ESome (e : expr) | ERef (e : expr)
| EIndex (e : expr) (i : nat) | ERange (e : expr) (i j : nat) | ECall (e : expr) (f : string).
Inductive stmt := SLet (mutable : bool) (x : string) (e : expr) | SAssign (x : string) (e : expr).

(** indices, ranges and method calls behind an expression *)
Fixpoint suffixes (fuel : nat) (e : expr) (ts : list rtok) : expr * list rtok :=
  match fuel with
  | 0 => (e, ts)
  | S n =>
      match ts with
      | RSym "[" :: RNum i :: RSym "]" :: ts' => suffixes n (EIndex e i) ts'
      | RSym "[" :: RNum i :: RSym "." :: RSym "." :: RNum j :: RSym "]" :: ts' => suffixes n (ERange e i j) ts'
      | RSym "." :: RId f :: RSym "(" :: RSym ")" :: ts' => suffixes n (ECall e f) ts'
      | _ => (e, ts)
      end
  end.
Fixpoint read_expr (fuel : nat) (ts : list rtok) : option (expr * list rtok) :=
  match fuel with
  | 0 => None
  | S n =>
      match ts with
      | RSym "&" :: ts' => match read_expr n ts' with Some (e, r) => Some (ERef e, r) | None => None end
      | RKey "Some" :: RSym "(" :: ts' => match read_expr n ts' with Some (e, RSym ")" :: r) => Some (suffixes n (ESome e) r) | _ => None end
      | RKey "None" :: ts' => Some (ENone, ts')
      | RId x :: ts' => Some (suffixes n (EVar x) ts')
      | _ => None
      end
  end.
Definition read_stmt (ts : list rtok) : option (stmt * list rtok) :=
  let rest k ts := match read_expr (S (List.length ts)) ts with Some (e, RSym ";" :: r) => Some (k e, r) | _ => None end in
  match ts with
  | RKey "let" :: RKey "mut" :: RId x :: RSym "=" :: ts' => rest (SLet true x) ts'
  | RKey "let" :: RId x :: RSym "=" :: ts' => rest (SLet false x) ts'
  | RId x :: RSym "=" :: ts' => rest (SAssign x) ts'
  | _ => None
  end.
Fixpoint read_stmts (fuel : nat) (ts : list rtok) : option (list stmt) :=
  match ts with
  | [] => Some []
  | _ => match fuel with
    | 0 => None
    | S n => match read_stmt ts with Some (s, r) => match read_stmts n r with Some l => Some (s :: l) | None => None end | None => None end
    end
  end.
Definition read_block (s : string) : option (list stmt) := let ts := rlex "" s in read_stmts (S (List.length ts)) ts.

(** ** Running statements *)
(** references are transparent; a slice and a vector are the same *)
Inductive value (A : Type) := VTok (a : A) | VList (l : list A) | VSome (v : value A) | VNone.
Arguments VTok {A}. Arguments VList {A}. Arguments VSome {A}. Arguments VNone {A}.
(** the values of WopSpec's [expected] *)
Fixpoint as_value {A} (b : bound A) : value A := match b with One a => VTok a | Slice l => VList l | Present b => VSome (as_value b) | Absent => VNone end.
(** innermost variable first, with its [mut] *)
Definition vars (A : Type) : Type := list (string * (bool * value A)).
Fixpoint find_var {A} (x : string) (env : vars A) : option (bool * value A) :=
  match env with [] => None | (y, v) :: env' => if String.eqb x y then Some v else find_var x env' end.
Fixpoint set_var {A} (x : string) (v : value A) (env : vars A) : vars A :=
  match env with [] => [] | (y, w) :: env' => if String.eqb x y then (y, (fst w, v)) :: env' else (y, w) :: set_var x v env' end.
(** [Panic P_index]: the program panics; [Panic P_unlisted]: it does not compile *)
Fixpoint eval {A} (env : vars A) (e : expr) : res (value A) :=
  match e with
  | EVar x => match find_var x env with Some v => Val (snd v) | None => Panic P_unlisted end
  | ENone => Val VNone
  | ESome e => do v <- eval env e; Val (VSome v)
  | ERef e => eval env e
  | EIndex e i => do v <- eval env e; match v with VList l => match nth_error l i with Some a => Val (VTok a) | None => Panic P_index end | _ => Panic P_unlisted end
  | ERange e i j => do v <- eval env e; match v with VList l => if (i <=? j) && (j <=? List.length l) then Val (VList (firstn (j - i) (skipn i l))) else Panic P_index | _ => Panic P_unlisted end
  | ECall e f => do v <- eval env e;
      if String.eqb f "clone" then Val v
      else if String.eqb f "to_vec" then match v with VList l => Val v | _ => Panic P_unlisted end
      else Panic P_unlisted
  end.
Definition exec {A} (env : vars A) (s : stmt) : res (vars A) :=
  match s with
  | SLet m x e => do v <- eval env e; Val ((x, (m, v)) :: env)
  | SAssign x e => do v <- eval env e; match find_var x env with Some (true, _) => Val (set_var x v env) | _ => Panic P_unlisted end
  end.
(** the variables after the statements [s] of a function with the argument [toks] *)
Definition run_text {A} (s : string) (toks : list A) : res (vars A) :=
  match read_block s with
  | Some l => foldM exec l [("toks", (false, VList toks))]
  | None => Panic P_unlisted
  end.

(** ** Items of a block *)
(** a text up to the first character in [p], that character, and what follows *)
Fixpoint up_to (p : list ascii) (s : string) : option (string * ascii * string) :=
  match s with
  | "" => None
  | String c s' => if existsb (Ascii.eqb c) p then Some ("", c, s') else match up_to p s' with Some (a, x, b) => Some (String c a, x, b) | None => None end
  end.
(** up to the brace that closes the [d]-th open one around, and what follows it *)
Fixpoint closing (d : nat) (s : string) : option (string * string) :=
  match s with
  | "" => None
  | String c s' =>
      let more d := match closing d s' with Some (a, b) => Some (String c a, b) | None => None end in
      if Ascii.eqb c "}" then match d with 0 => Some ("", s') | S d' => more d' end else more (if Ascii.eqb c "{" then S d else d)
  end.
(** every brace is closed *)
Definition balanced (s : string) : Prop := closing 0 (s ++ "}") = Some (s, "").
Fixpoint trim (s : string) : string := match s with String c s' => if is_blank c then trim s' else s | "" => "" end.

(** a function, an insertion of a list of functions, and a declaration or statement ending in a semicolon *)
Inductive item := IFn (name sig body : string) | IInsert (key : string) (fns : list string) | IOther (s : string).
Definition read_item (s : string) : option (item * string) :=
  match after "fn " s with
  | Some r =>
      match up_to ["("%char] r with
      | Some (name, _, r) => match up_to ["{"%char] r with
        | Some (sig, _, r) => match closing 0 r with Some (body, r) => Some (IFn name sig body, r) | None => None end
        | None => None end
      | None => None end
  | None =>
      match after "map.insert(" s with
      | Some r =>
          match up_to [","%char] r with
          | Some (key, _, r) => match after " vec![" r with
            | Some r => match up_to [";"%char] r with Some (l, _, r) => Some (IInsert key (elements l), r) | None => None end
            | None => None end
          | None => None end
      | None => match up_to [";"%char; "}"%char] s with Some (e, ";"%char, r) => Some (IOther e, r) | _ => None end
      end
  end.
(** the items of the text behind an opening brace, the expression at its end, and what follows the closing brace *)
Fixpoint read_items (fuel : nat) (s : string) : option (list item * string * string) :=
  match fuel with
  | 0 => None
  | S n =>
      match read_item (trim s) with
      | Some (i, r) => match read_items n r with Some (l, e, r) => Some (i :: l, e, r) | None => None end
      | None => match up_to ["}"%char] (trim s) with Some (e, _, r) => Some ([], e, r) | None => None end
      end
  end.
(** the items of a block [{ .. }] *)
Definition read_code (s : string) : option (list item * string * string) :=
  match after "{" s with Some r => read_items (S (String.length r)) r | None => None end.
(** the arguments of the body [lrp::Meta::new({ block }, span)] *)
Definition read_body (s : string) : option (string * string) :=
  match after "lrp::Meta::new({" (trim s) with Some r => closing 0 r | None => None end.

(** ** Texts that do not disturb the reader *)
(** without the characters [p] *)
Definition free (p : list ascii) (s : string) : bool := all_chars (fun c => negb (existsb (Ascii.eqb c) p)) s.
Definition special : list ascii := [newline; ","; " "; "("; ")"; "{"; "}"; "["; "]"; ";"]%char.
Definition curly : list ascii := ["{"; "}"]%char.

(** the lists inserted under [k], and the signatures and bodies of the functions called [f] *)
Definition inserted (k : string) (l : list item) : list (list string) := flat_map (fun i => match i with IInsert k' fs => if String.eqb k' k then [fs] else [] | _ => [] end) l.
Definition defined (f : string) (l : list item) : list (string * string) := flat_map (fun i => match i with IFn n sig body => if String.eqb n f then [(sig, body)] else [] | _ => [] end) l.

(** names, types, imports and code blocks of a file that leave the code made of them readable *)
Definition clean_file (text : span -> string) (ds : list decl) : Prop :=
  (forall s, In (DUse s) ds -> free (";"%char :: curly) (text s) = true) /\
  forall name ty alts, In (DRule name ty alts) ds -> free special (text name) = true /\ free curly (text ty) = true /\
    forall pipe cb, In (pipe, cb) alts -> (forall c, text cb = ("->" ++ c ++ "%")%string -> balanced c) /\ forall n, In n (pipe_names text pipe) -> is_name n = true.

(** ** Files *)
(** a [use], an attribute and a public function *)
Inductive top := TUse (s : string) | TAttr (s : string) | TFn (name sig body : string).
Definition read_top (s : string) : option (top * string) :=
  match after "use " s with
  | Some r => match up_to [";"%char] r with Some (u, _, r) => Some (TUse u, r) | None => None end
  | None =>
      match after "#[" s with
      | Some r => match up_to ["]"%char] r with Some (a, _, r) => Some (TAttr a, r) | None => None end
      | None =>
          match after "pub fn " s with
          | Some r =>
              match up_to ["("%char] r with
              | Some (name, _, r) => match up_to ["{"%char] r with
                | Some (sig, _, r) => match closing 0 r with Some (body, r) => Some (TFn name sig body, r) | None => None end
                | None => None end
              | None => None end
          | None => None
          end
      end
  end.
Fixpoint read_tops (fuel : nat) (s : string) : option (list top) :=
  match trim s with
  | "" => Some []
  | s' =>
      match fuel with
      | 0 => None
      | S n => match read_top s' with Some (t, r) => match read_tops n r with Some l => Some (t :: l) | None => None end | None => None end
      end
  end.
Definition read_source (s : string) : option (list top) := read_tops (S (String.length s)) s.
(** [Grammar::new(a, { block }, z)] *)
Definition read_grammar (s : string) : option (string * string * string) :=
  match after "Grammar::new(" (trim s) with
  | Some r =>
      match up_to [","%char] r with
      | Some (a, _, r) => match after " {" r with
        | Some r => match closing 0 r with
          | Some (block, r) => match after ", " r with
            | Some r => match up_to [")"%char] r with Some (z, _, _) => Some (a, block, z) | None => None end
            | None => None end
          | None => None end
        | None => None end
      | None => None end
  | None => None
  end.
(** imports and symbols, which may be literals, that leave the grammar readable *)
Definition plain_file (text : span -> string) (ds : list decl) : Prop :=
  (forall s, In (DUse s) ds -> free [newline] (text s) = true) /\
  forall ds1 name ty alts ds2 alt w s, ds = ds1 ++ DRule name ty alts :: ds2 -> In alt alts -> In w (expand (fst alt)) -> In s w ->
    free (newline :: ","%char :: " "%char :: "]"%char :: curly) (text (resolve text ds1 s)) = true.

(** [items] are the reductors of the grammar [m] of the file [ds]: under each rule a list of as many functions as it has
    productions is inserted once; the function listed for a production is defined once, and its block, whose value it
    wraps with the span from the first to the last token, starts with statements that bind the names of the alternative and
    nothing else, and ends with the code of the alternative *)
Definition reductors_for (text : span -> string) (ds : list decl) (entry : string) (m : rulemap string) (items : list item) : Prop :=
  forall ds1 name ty alts ds2, ds = ds1 ++ DRule name ty alts :: ds2 ->
  exists fns, inserted (text name) items = [fns] /\ (forall i, (exists w, prod_at m (text name) i w) <-> exists f, nth_error fns i = Some f) /\
    forall i alt r, nth_error (flat_map (fun alt => map (pair alt) (runs (fst alt))) alts) i = Some (alt, r) ->
      prod_at m (text name) i (map (fun s => text (resolve text ds1 s)) (fst r)) /\
      exists f body stm c, nth_error fns i = Some f /\ defined f items = [(("toks: &[" ++ entry ++ "]) -> lrp::Meta<" ++ text ty ++ "> ")%string, body)] /\
        read_body body = Some ((" " ++ stm ++ " " ++ c)%string, (", lrp::Span::new(toks[0].item.span.start, toks.last().unwrap().item.span.end))" ++ String newline (String (ascii_of_nat 9) ""))%string) /\
        text (snd alt) = ("->" ++ c ++ "%")%string /\
        (good text (fst alt) -> forallb solid (fst alt) = true -> fst r <> [] -> ~ In "toks" (pipe_names text (fst alt)) -> forall A (toks : list A), List.length toks = List.length (fst r) ->
         exists env, run_text stm toks = Val env /\
           (forall n, In n (pipe_names text (fst alt)) -> exists v, find_var n env = Some (false, as_value v) /\ expected text (fst alt) toks (snd r) n = Val v) /\
           (forall n, ~ In n (pipe_names text (fst alt)) -> find_var n env = if String.eqb n "toks" then Some (false, VList toks) else None)).

(** [s] is the file out.rs for [ds]: a function returning the grammar with the productions of [ds], and one returning
    its reductors *)
Definition out_of (text : span -> string) (ds : list decl) (s : string) : Prop :=
  exists l1 g block code lints items,
    read_source s = Some [TUse "crate::{Ast, Gramem, Meta, Sym}"; TUse "lrp::{Grammar, ReductMap, Span}"; TAttr l1; TAttr "must_use"; TFn "grammar" ") -> Grammar<Sym> " g;
      TAttr lints; TFn "reduct_map" ") -> ReductMap<Meta<Ast>, Sym> " code] /\
    read_grammar g = Some ("Sym::EntryPoint", block, "Sym::Eof") /\
    let m := grammar_map (read_rules ("{" ++ block ++ "}")) in
    read_code ("{" ++ code ++ "}") = Some (items, ("map" ++ String newline "")%string, "") /\
    (wf_rules m /\ (forall n, nonterm m n <-> In n (rule_names text ds)) /\
     forall ds1 name ty alts ds2, ds = ds1 ++ DRule name ty alts :: ds2 -> forall i w, prod_at m (text name) i w <->
       exists r, nth_error (flat_map (fun alt => expand (fst alt)) alts) i = Some r /\ w = map (fun s => text (resolve text ds1 s)) r) /\
    reductors_for text ds "Gramem" m items.
