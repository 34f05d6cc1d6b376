(** What a grammar file says a text means, without the generator: no productions, no tables, no
    reductors, only declarations, patterns and code blocks. *)
From Coq Require Import List Bool Arith String.
From Verif Require Import BTree Model Strings Wop WopSpec WopGen.
Import ListNotations.
Local Open Scope list_scope.

Section Means.
Context {V : Type}.
Variable text : span -> string.
Variable code : string -> list (gtok V) -> (string -> option (bound (gtok V))) -> V.
Variable ds : list decl.

(** what the code block of the pipe [ps] sees when the choice with places [e] was made and the
    symbols kept stand for the tokens [its]: the names of the pipe, each bound to the tokens of its item *)
Definition sees (ps : list pat) (its : list (gtok V)) (e : env) (scope : string -> option (bound (gtok V))) : Prop :=
  forall n, (In n (pipe_names text ps) -> exists v, expected text ps its e n = Val v /\ scope n = Some v) /\
    (~ In n (pipe_names text ps) -> scope n = None).

(** [means X w it]: the tokens [w] make up an [X], and [it] is the token carrying its value.  A name
    without a rule is a token.  For a rule, choose an alternative and one of the ways to choose
    alternatives of groups and drop optionals in it; every symbol kept, or what an alias declared
    earlier says it stands for, covers a part of [w]; the code block, which sees the tokens of all symbols kept and those
    of the names, makes the value; the span runs
    from the first to the last. *)
Inductive means : string -> list (gtok V) -> gtok V -> Prop :=
| means_tok t : ~ In (tk_ty t) (rule_names text ds) -> means (tk_ty t) [t] t
| means_rule ds1 name ty alts ds2 alt r w a its z c scope :
    ds = ds1 ++ DRule name ty alts :: ds2 -> In alt alts -> In r (runs (fst alt)) ->
    means_seq (map (fun s => text (resolve text ds1 s)) (fst r)) w its ->
    hd_error its = Some a -> hd_error (rev its) = Some z ->
    sees (fst alt) its (snd r) scope -> text (snd alt) = ("->" ++ c ++ "%")%string ->
    means (text name) w (mkTok (code c its scope, (fst (snd (tk_item a)), snd (snd (tk_item z)))) (text name))
with means_seq : list string -> list (gtok V) -> list (gtok V) -> Prop :=
| means_nil : means_seq [] [] []
| means_cons X Xs w1 w2 it its : means X w1 it -> means_seq Xs w2 its -> means_seq (X :: Xs) (w1 ++ w2) (it :: its).

(** the input [w] read as a file whose entry rule is [start]: its first production covers [w]; the
    result is the value of the last symbol of that production *)
Inductive means_file (start : string) (w : list (gtok V)) : V * span -> Prop :=
| means_entry ds1 name ty alts ds2 r rest its it :
    ds = ds1 ++ DRule name ty alts :: ds2 -> text name = start -> flat_map (fun alt => expand (fst alt)) alts = r :: rest ->
    means_seq (map (fun s => text (resolve text ds1 s)) r) w (its ++ [it]) -> means_file start w (tk_item it).
End Means.
Scheme means_ind2 := Minimality for means Sort Prop
  with means_seq_ind2 := Minimality for means_seq Sort Prop.
Combined Scheme means_mut from means_ind2, means_seq_ind2.

(** code blocks see their names only through their values *)
Definition respects {V} (code : string -> list (gtok V) -> (string -> option (bound (gtok V))) -> V) : Prop :=
  forall c l e e', (forall n, e n = e' n) -> code c l e = code c l e'.

(** every alternative of every rule is one whose aliases [wop] gets right (C34), has no alias
    [toks] and no empty production *)
Definition sane (text : span -> string) (ds : list decl) : Prop :=
  forall name ty alts alt, In (DRule name ty alts) ds -> In alt alts ->
    good text (fst alt) /\ ~ In "toks"%string (pipe_names text (fst alt)) /\ forall w, picks (fst alt) w -> w <> [].
