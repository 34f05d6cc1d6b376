(** wop compiled by its own model: the token sequence of /repo/wop/src/wop.grammar (spans computed by
    the rules of [Sym], /repo/wop/src/lib.rs:41-118) is parsed, processed and dumped by the
    definitions of Wop.v, and the outcome is compared with the generated file
    /repo/wop/src/out.rs.  A test of the model, not a theorem about all inputs. *)
From Coq Require Import List Bool Arith Ascii String.
From Verif Require Import BTree Model Wop.
Import ListNotations.
Local Open Scope string_scope.
Local Open Scope list_scope.

(** /repo/wop/src/wop.grammar *)
Definition source : string :=
"use crate::Sym::*;
use crate::Ast;

alias "";"" Sc;
alias ""::"" PathAccess;
alias ""="" Assign;
alias ""alias"" AliasWord;
alias ""use"" UseWord;
alias ""*"" Glob;
alias "":"" TwoDots;
alias ""("" OpenParen;
alias "")"" CloseParen;
alias ""?"" Optional;
alias ""&"" Clone;

EntryPoint: Ast = Program:&p -> { Ast::EntryPoint(Box::new(p)) }% ;

Program: Ast = Program (Import:&ext | Alias:&ext | RuleDecl:&ext) "";"" -> { 
    let program = &toks[0];
    let mut program_vec = match program.item.item {
        Ast::Program(ref v) => v.clone(),
        _ => unreachable!(),
    };
    program_vec.push(ext.unwrap());
    Ast::Program(program_vec)
}% 
    |  (Alias | Import | RuleDecl):&p "";"" -> { Ast::Program(p) }% ;

IdentPath: Ast = IdentPath:&ip PathAccess Ident:&ext -> {
    let span = Span::new(ip.item.span.start, ext.item.span.end);
    Ast::IdentPath(span)
}%
    | Ident -> { Ast::IdentPath(toks[0].item.span) }%;

RuleDecl: Ast = IdentPath "":"" IdentPath ""="" Rule -> {
    let ident = toks[0].item.item.get_src_ref().unwrap();
    let ty = toks[2].item.item.get_src_ref().unwrap();
    let rule_vec = match toks[4].item.item {
        Ast::Rule(ref v) => v.clone(),
        _ => unreachable!(),
    };
    Ast::RuleDecl((ident, ty, rule_vec))
}%;

Rule: Ast = Rule Pipe RulePipe CodeBlock?:cb -> {
    let mut rule_vec = match toks[0].item.item {
        Ast::Rule(ref vv) => vv.clone(),
        _ => unreachable!(),
    };
    match toks[2].item.item {
        Ast::RulePipe(ref v) => rule_vec.push((v.clone(), cb.map_or_else(|| Span::new(0, 0), |g| g.item.span))),
        _ => unreachable!(),
    };
    Ast::Rule(rule_vec)
}%
    | RulePipe CodeBlock?:cb -> {
    let Ast::RulePipe(ref prod) = toks[0].item.item else {
        unreachable!()
    };
    Ast::Rule(vec![(prod.clone(), cb.map_or_else(|| Span::new(0, 0), |g| g.item.span))])
}%;

RulePipe: Ast = RulePipe RuleItem:&item -> {
    let mut v = match toks[0].item.item {
        Ast::RulePipe(ref v) => v.clone(),
        _ => unreachable!(),
    };
    v.push(item);
    Ast::RulePipe(v)
}%
    | RuleItem -> {
    Ast::RulePipe(toks[..1].to_vec())
}%;

RuleItem: Ast = (IdentPath:&item | StrLit:&item) Optional?:opt ("":"" ""&""?:cl Ident:id)? -> {
    Ast::RuleItem(Box::new(item.unwrap()), opt.is_some(), id.map(|id| id.item.span), cl.is_some())
}%
    | ""("" Rule:&rule "")"" Optional?:opt ("":"" ""&""?:cl Ident:id)? -> {
    Ast::RuleItem(Box::new(rule), opt.is_some(), id.map(|id| id.item.span), cl.is_some())
}%;

Import: Ast = ""use"" (IdentPath ""::"" ""*"" | IdentPath) -> {
    Ast::Import(Span::new(toks[1].item.span.start, toks.last().unwrap().item.span.end))
}%;

Alias: Ast = ""alias"" (Ident | StrLit) IdentPath -> {
    Ast::Alias(toks[1].item.span, toks[2].item.span)
}%;
"%string.
Definition source_text (s : span) : string := substring (fst s) (snd s - fst s) source.

Definition source_tokens : list (sym * span) :=
  [
(UseWord, (0, 3)); (Ident, (4, 9)); (PathAccess, (9, 11)); (Ident, (11, 14)); (PathAccess, (14, 16)); (Glob, (16, 17));
   (Sc, (17, 18)); (UseWord, (19, 22)); (Ident, (23, 28)); (PathAccess, (28, 30)); (Ident, (30, 33)); (Sc, (33, 34));
   (AliasWord, (36, 41)); (StrLit, (42, 45)); (Ident, (46, 48)); (Sc, (48, 49)); (AliasWord, (50, 55)); (StrLit, (56, 60));
   (Ident, (61, 71)); (Sc, (71, 72)); (AliasWord, (73, 78)); (StrLit, (79, 82)); (Ident, (83, 89)); (Sc, (89, 90));
   (AliasWord, (91, 96)); (StrLit, (97, 104)); (Ident, (105, 114)); (Sc, (114, 115)); (AliasWord, (116, 121)); (StrLit, (122, 127));
   (Ident, (128, 135)); (Sc, (135, 136)); (AliasWord, (137, 142)); (StrLit, (143, 146)); (Ident, (147, 151)); (Sc, (151, 152));
   (AliasWord, (153, 158)); (StrLit, (159, 162)); (Ident, (163, 170)); (Sc, (170, 171)); (AliasWord, (172, 177)); (StrLit, (178, 181));
   (Ident, (182, 191)); (Sc, (191, 192)); (AliasWord, (193, 198)); (StrLit, (199, 202)); (Ident, (203, 213)); (Sc, (213, 214));
   (AliasWord, (215, 220)); (StrLit, (221, 224)); (Ident, (225, 233)); (Sc, (233, 234)); (AliasWord, (235, 240)); (StrLit, (241, 244));
   (Ident, (245, 250)); (Sc, (250, 251)); (Ident, (253, 263)); (TwoDots, (263, 264)); (Ident, (265, 268)); (Assign, (269, 270));
   (Ident, (271, 278)); (TwoDots, (278, 279)); (Clone, (279, 280)); (Ident, (280, 281)); (CodeBlock, (282, 318)); (Sc, (319, 320));
   (Ident, (322, 329)); (TwoDots, (329, 330)); (Ident, (331, 334)); (Assign, (335, 336)); (Ident, (337, 344)); (OpenParen, (345, 346));
   (Ident, (346, 352)); (TwoDots, (352, 353)); (Clone, (353, 354)); (Ident, (354, 357)); (Pipe, (358, 359)); (Ident, (360, 365));
   (TwoDots, (365, 366)); (Clone, (366, 367)); (Ident, (367, 370)); (Pipe, (371, 372)); (Ident, (373, 381)); (TwoDots, (381, 382));
   (Clone, (382, 383)); (Ident, (383, 386)); (CloseParen, (386, 387)); (StrLit, (388, 391)); (CodeBlock, (392, 624)); (Pipe, (630, 631));
   (OpenParen, (633, 634)); (Ident, (634, 639)); (Pipe, (640, 641)); (Ident, (642, 648)); (Pipe, (649, 650)); (Ident, (651, 659));
   (CloseParen, (659, 660)); (TwoDots, (660, 661)); (Clone, (661, 662)); (Ident, (662, 663)); (StrLit, (664, 667)); (CodeBlock, (668, 691));
   (Sc, (692, 693)); (Ident, (695, 704)); (TwoDots, (704, 705)); (Ident, (706, 709)); (Assign, (710, 711)); (Ident, (712, 721));
   (TwoDots, (721, 722)); (Clone, (722, 723)); (Ident, (723, 725)); (Ident, (726, 736)); (Ident, (737, 742)); (TwoDots, (742, 743));
   (Clone, (743, 744)); (Ident, (744, 747)); (CodeBlock, (748, 845)); (Pipe, (850, 851)); (Ident, (852, 857)); (CodeBlock, (858, 899));
   (Sc, (899, 900)); (Ident, (902, 910)); (TwoDots, (910, 911)); (Ident, (912, 915)); (Assign, (916, 917)); (Ident, (918, 927));
   (StrLit, (928, 931)); (Ident, (932, 941)); (StrLit, (942, 945)); (Ident, (946, 950)); (CodeBlock, (951, 1232)); (Sc, (1232, 1233));
   (Ident, (1235, 1239)); (TwoDots, (1239, 1240)); (Ident, (1241, 1244)); (Assign, (1245, 1246)); (Ident, (1247, 1251)); (Ident, (1252, 1256));
   (Ident, (1257, 1265)); (Ident, (1266, 1275)); (Optional, (1275, 1276)); (TwoDots, (1276, 1277)); (Ident, (1277, 1279)); (CodeBlock, (1280, 1616));
   (Pipe, (1621, 1622)); (Ident, (1623, 1631)); (Ident, (1632, 1641)); (Optional, (1641, 1642)); (TwoDots, (1642, 1643)); (Ident, (1643, 1645));
   (CodeBlock, (1646, 1831)); (Sc, (1831, 1832)); (Ident, (1834, 1842)); (TwoDots, (1842, 1843)); (Ident, (1844, 1847)); (Assign, (1848, 1849));
   (Ident, (1850, 1858)); (Ident, (1859, 1867)); (TwoDots, (1867, 1868)); (Clone, (1868, 1869)); (Ident, (1869, 1873)); (CodeBlock, (1874, 2041));
   (Pipe, (2046, 2047)); (Ident, (2048, 2056)); (CodeBlock, (2057, 2102)); (Sc, (2102, 2103)); (Ident, (2105, 2113)); (TwoDots, (2113, 2114));
   (Ident, (2115, 2118)); (Assign, (2119, 2120)); (OpenParen, (2121, 2122)); (Ident, (2122, 2131)); (TwoDots, (2131, 2132)); (Clone, (2132, 2133));
   (Ident, (2133, 2137)); (Pipe, (2138, 2139)); (Ident, (2140, 2146)); (TwoDots, (2146, 2147)); (Clone, (2147, 2148)); (Ident, (2148, 2152));
   (CloseParen, (2152, 2153)); (Ident, (2154, 2162)); (Optional, (2162, 2163)); (TwoDots, (2163, 2164)); (Ident, (2164, 2167)); (OpenParen, (2168, 2169));
   (StrLit, (2169, 2172)); (StrLit, (2173, 2176)); (Optional, (2176, 2177)); (TwoDots, (2177, 2178)); (Ident, (2178, 2180)); (Ident, (2181, 2186));
   (TwoDots, (2186, 2187)); (Ident, (2187, 2189)); (CloseParen, (2189, 2190)); (Optional, (2190, 2191)); (CodeBlock, (2192, 2298)); (Pipe, (2303, 2304));
   (StrLit, (2305, 2308)); (Ident, (2309, 2313)); (TwoDots, (2313, 2314)); (Clone, (2314, 2315)); (Ident, (2315, 2319)); (StrLit, (2320, 2323));
   (Ident, (2324, 2332)); (Optional, (2332, 2333)); (TwoDots, (2333, 2334)); (Ident, (2334, 2337)); (OpenParen, (2338, 2339)); (StrLit, (2339, 2342));
   (StrLit, (2343, 2346)); (Optional, (2346, 2347)); (TwoDots, (2347, 2348)); (Ident, (2348, 2350)); (Ident, (2351, 2356)); (TwoDots, (2356, 2357));
   (Ident, (2357, 2359)); (CloseParen, (2359, 2360)); (Optional, (2360, 2361)); (CodeBlock, (2362, 2459)); (Sc, (2459, 2460)); (Ident, (2462, 2468));
   (TwoDots, (2468, 2469)); (Ident, (2470, 2473)); (Assign, (2474, 2475)); (StrLit, (2476, 2481)); (OpenParen, (2482, 2483)); (Ident, (2483, 2492));
   (StrLit, (2493, 2497)); (StrLit, (2498, 2501)); (Pipe, (2502, 2503)); (Ident, (2504, 2513)); (CloseParen, (2513, 2514)); (CodeBlock, (2515, 2610));
   (Sc, (2610, 2611)); (Ident, (2613, 2618)); (TwoDots, (2618, 2619)); (Ident, (2620, 2623)); (Assign, (2624, 2625)); (StrLit, (2626, 2633));
   (OpenParen, (2634, 2635)); (Ident, (2635, 2640)); (Pipe, (2641, 2642)); (Ident, (2643, 2649)); (CloseParen, (2649, 2650)); (Ident, (2651, 2660));
   (CodeBlock, (2661, 2721)); (Sc, (2721, 2722))].

(** the constructor names of [Sym] as the emitted code writes them *)
Definition sym_name (s : sym) : string :=
  match s with
  | AliasWord => "AliasWord"
  | UseWord => "UseWord"
  | Assign => "Assign"
  | Pipe => "Pipe"
  | OpenParen => "OpenParen"
  | CloseParen => "CloseParen"
  | Sc => "Sc"
  | PathAccess => "PathAccess"
  | TwoDots => "TwoDots"
  | Glob => "Glob"
  | Optional => "Optional"
  | Clone => "Clone"
  | Ident => "Ident"
  | StrLit => "StrLit"
  | BlockComment => "BlockComment"
  | LineComment => "LineComment"
  | CodeBlock => "CodeBlock"
  | Ws => "Ws"
  | Eof => "Eof"
  | EntryPoint => "EntryPoint"
  | Program => "Program"
  | Rule => "Rule"
  | Import => "Import"
  | Alias => "Alias"
  | RulePipe => "RulePipe"
  | RuleDecl => "RuleDecl"
  | IdentPath => "IdentPath"
  | RuleItem => "RuleItem"
  | SymError => "Error"
  | SymToken => "Token"
  end.

(** a fixed [HashSet] iteration order *)
Definition by_first (p : prod_build) (subs : list prod_build) (l : list span) : list span := l.

(** the [let] statements of the reductors in /repo/wop/src/out.rs:114-858, one list of functions per rule *)
Definition out_bindings : list (string * list (list string)) :=
  [
("Alias",
    [[];
     []]);
   ("EntryPoint",
    [["let p = toks[0].clone();"]]);
   ("IdentPath",
    [["let ip = toks[0].clone();"; "let ext = toks[2].clone();"];
     []]);
   ("Import",
    [[];
     []]);
   ("Program",
    [["let ext = Some(toks[1].clone());"];
     ["let ext = Some(toks[1].clone());"];
     ["let ext = Some(toks[1].clone());"];
     ["let p = toks[0..1].to_vec();"];
     ["let p = toks[0..1].to_vec();"];
     ["let p = toks[0..1].to_vec();"]]);
   ("Rule",
    [["let cb = Some(toks[3].clone());"];
     ["let mut cb = Some(toks[0].clone()); cb = None; let cb = cb;"];
     ["let cb = Some(toks[1].clone());"];
     ["let mut cb = Some(toks[0].clone()); cb = None; let cb = cb;"]]);
   ("RuleDecl",
    [[]]);
   ("RuleItem",
    [["let item = Some(toks[0].clone());"; "let opt = Some(toks[1].clone());"; "let cl = Some(toks[3].clone());"; "let id = Some(toks[4].clone());"];
     ["let item = Some(toks[0].clone());"; "let opt = Some(toks[1].clone());"; "let cl = Some(toks[3].clone());"; "let id = Some(toks[3].clone());"];
     ["let item = Some(toks[0].clone());"; "let opt = Some(toks[1].clone());"; "let mut cl = Some(&toks[0]); cl = None; let cl = cl;"; "let mut id = Some(&toks[0]); id = None; let id = id;"];
     ["let item = Some(toks[0].clone());"; "let mut opt = Some(toks[0].clone()); opt = None; let opt = opt;"; "let cl = Some(toks[2].clone());"; "let id = Some(toks[3].clone());"];
     ["let item = Some(toks[0].clone());"; "let mut opt = Some(toks[0].clone()); opt = None; let opt = opt;"; "let cl = Some(toks[2].clone());"; "let id = Some(toks[2].clone());"];
     ["let item = Some(toks[0].clone());"; "let mut opt = Some(toks[0].clone()); opt = None; let opt = opt;"; "let mut cl = Some(&toks[0]); cl = None; let cl = cl;"; "let mut id = Some(&toks[0]); id = None; let id = id;"];
     ["let item = Some(toks[0].clone());"; "let opt = Some(toks[1].clone());"; "let cl = Some(toks[3].clone());"; "let id = Some(toks[4].clone());"];
     ["let item = Some(toks[0].clone());"; "let opt = Some(toks[1].clone());"; "let cl = Some(toks[3].clone());"; "let id = Some(toks[3].clone());"];
     ["let item = Some(toks[0].clone());"; "let opt = Some(toks[1].clone());"; "let mut cl = Some(&toks[0]); cl = None; let cl = cl;"; "let mut id = Some(&toks[0]); id = None; let id = id;"];
     ["let item = Some(toks[0].clone());"; "let mut opt = Some(toks[0].clone()); opt = None; let opt = opt;"; "let cl = Some(toks[2].clone());"; "let id = Some(toks[3].clone());"];
     ["let item = Some(toks[0].clone());"; "let mut opt = Some(toks[0].clone()); opt = None; let opt = opt;"; "let cl = Some(toks[2].clone());"; "let id = Some(toks[2].clone());"];
     ["let item = Some(toks[0].clone());"; "let mut opt = Some(toks[0].clone()); opt = None; let opt = opt;"; "let mut cl = Some(&toks[0]); cl = None; let cl = cl;"; "let mut id = Some(&toks[0]); id = None; let id = id;"];
     ["let rule = toks[1].clone();"; "let opt = Some(toks[3].clone());"; "let cl = Some(toks[5].clone());"; "let id = Some(toks[6].clone());"];
     ["let rule = toks[1].clone();"; "let opt = Some(toks[3].clone());"; "let cl = Some(toks[5].clone());"; "let id = Some(toks[5].clone());"];
     ["let rule = toks[1].clone();"; "let opt = Some(toks[3].clone());"; "let mut cl = Some(&toks[0]); cl = None; let cl = cl;"; "let mut id = Some(&toks[0]); id = None; let id = id;"];
     ["let rule = toks[1].clone();"; "let mut opt = Some(toks[0].clone()); opt = None; let opt = opt;"; "let cl = Some(toks[4].clone());"; "let id = Some(toks[5].clone());"];
     ["let rule = toks[1].clone();"; "let mut opt = Some(toks[0].clone()); opt = None; let opt = opt;"; "let cl = Some(toks[4].clone());"; "let id = Some(toks[4].clone());"];
     ["let rule = toks[1].clone();"; "let mut opt = Some(toks[0].clone()); opt = None; let opt = opt;"; "let mut cl = Some(&toks[0]); cl = None; let cl = cl;"; "let mut id = Some(&toks[0]); id = None; let id = id;"]]);
   ("RulePipe",
    [["let item = toks[1].clone();"];
     []])].

Definition newline : string := String (ascii_of_nat 10) EmptyString.

(** the builder of wop's own grammar file *)
Definition own : res (builder + error sym) := from_tokens source_text by_first true 3000 (map (fun t => lexed (fst t) (snd t)) source_tokens).

(** the productions emitted for wop's own grammar file are those of out.rs, rule by rule in the same order *)
Definition out_rules : list (string * list (list string)) :=
  map (fun e => (sym_name (fst e), map (map sym_name) (snd e))) wop_rules.
Definition texts (b : builder) : res (list (string * list (list string))) :=
  do r <- dump_reductor source_text b; Val (map (fun e => (fst e, map (fun f => map binding_text (fst f)) (snd e))) r).
Definition out_texts : list (string * list (list string)) :=
  map (fun e => (fst e, map (map (fun l => String.append l newline)) (snd e))) out_bindings.
Definition own_dump : res (list (string * list (list string)) * list (string * list (list string))) :=
  do b <- own; match b with inl b => do t <- texts b; Val (dump_grammar source_text b, t) | inr _ => Panic P_unlisted end.
Example own_out : own_dump = Val (bm_of_list out_rules, bm_of_list out_texts).
Proof. vm_compute. reflexivity. Qed.
