(** C13 - C15, C18, C22, C24 and the sharpened C44 - C46, C58 *)
From Coq Require Import List Bool Arith String.
From Verif Require Import BTree Model Strings Spec SpecP Interface Wrap Final Check More Export Examples Refute.
Import ListNotations.
Local Open Scope string_scope.
Local Open Scope list_scope.

(** ** C13, C14 *)
(** S -> A; A -> a | ( S )  has no conflicts under any method, and the sentence ( a ) is rejected;
    in release builds  Z -> a | b  has no conflicts and the sentence b is rejected. *)
Theorem C13_clr_complete_refuted :
  (exists (rules : rulemap string) (start eof : string) (g : grammar string) (t : tabler string) (input : list (token string unit)),
   wf_rules rules /\ grammar_new true start rules eof = Val g /\ makes CLR true g t /\ term rules eof /\ conflicts (t_actions t) = [] /\
   sentence rules start (map tk_ty input) /\ validates t input false) /\
  (exists (rules : rulemap string) (start eof : string) (g : grammar string) (t : tabler string) (input : list (token string unit)),
   wf_rules rules /\ grammar_new false start rules eof = Val g /\ makes CLR false g t /\ term rules eof /\ start_fresh rules start /\ conflicts (t_actions t) = [] /\
   sentence rules start (map tk_ty input) /\ validates t input false).
Proof. exact (conj (rec2_incomplete CLR) (two_incomplete CLR)). Qed.
Print Assumptions C13_clr_complete_refuted.

Theorem C14_slr_complete_refuted :
  (exists (rules : rulemap string) (start eof : string) (g : grammar string) (t : tabler string) (input : list (token string unit)),
   wf_rules rules /\ grammar_new true start rules eof = Val g /\ makes SLR true g t /\ term rules eof /\ conflicts (t_actions t) = [] /\
   sentence rules start (map tk_ty input) /\ validates t input false) /\
  (exists (rules : rulemap string) (start eof : string) (g : grammar string) (t : tabler string) (input : list (token string unit)),
   wf_rules rules /\ grammar_new false start rules eof = Val g /\ makes SLR false g t /\ term rules eof /\ start_fresh rules start /\ conflicts (t_actions t) = [] /\
   sentence rules start (map tk_ty input) /\ validates t input false).
Proof. exact (conj (rec2_incomplete SLR) (two_incomplete SLR)). Qed.
Print Assumptions C14_slr_complete_refuted.

(** With a single start production (always so in debug builds) a sentence is accepted, or stopped
    by a conflict, or by IncompleteExec; the last never happens when the start symbol occurs in no
    right-hand side, and conflicts do not happen when none are reported.  Missing: acceptance for
    recursive start symbols and for several start productions, refuted above. *)
Theorem C13_clr_complete_partial : forall (T : Type) (OT : Ord T) (dbg : bool) (start eof : T) (rules : rulemap T) (g : grammar T),
  wf_rules rules -> grammar_new dbg start rules eof = Val g -> forall t, makes CLR dbg g t -> term rules eof -> dbg = true \/ single_start rules start ->
  (forall M (maps : reductmap T M) input, covers rules maps -> sentence rules start (map tk_ty input) ->
     (exists m, parses t input maps (POk m)) \/ (exists a b, parses t input maps (PErr (ConflictErr a b))) \/ parses t input maps (PErr IncompleteExec)) /\
  (start_fresh rules start ->
   (forall M (maps : reductmap T M) input, covers rules maps -> sentence rules start (map tk_ty input) ->
     (exists m, parses t input maps (POk m)) \/ (exists a b, parses t input maps (PErr (ConflictErr a b)))) /\
   (forall M (maps : reductmap T M) input, covers rules maps -> conflicts (t_actions t) = [] -> sentence rules start (map tk_ty input) ->
     exists m, parses t input maps (POk m)) /\
   (forall input, conflicts (t_actions t) = [] -> sentence rules start (map tk_ty input) -> validates t input true)).
Proof.
  exact (fun T OT dbg start eof rules g W Hg t Hm He Hs => conj
    (complete_any dbg start eof rules g W Hg CLR t Hm (or_introl clr_lalr) He Hs)
    (fun Hf => complete dbg start eof rules g W Hg CLR t Hm (or_introl clr_lalr) He Hf Hs)).
Qed.
Print Assumptions C13_clr_complete_partial.

Theorem C14_slr_complete_partial : forall (T : Type) (OT : Ord T) (dbg : bool) (start eof : T) (rules : rulemap T) (g : grammar T),
  wf_rules rules -> grammar_new dbg start rules eof = Val g -> forall t, makes SLR dbg g t -> term rules eof -> dbg = true \/ single_start rules start ->
  (forall M (maps : reductmap T M) input, covers rules maps -> sentence rules start (map tk_ty input) ->
     (exists m, parses t input maps (POk m)) \/ (exists a b, parses t input maps (PErr (ConflictErr a b))) \/ parses t input maps (PErr IncompleteExec)) /\
  (start_fresh rules start ->
   (forall M (maps : reductmap T M) input, covers rules maps -> sentence rules start (map tk_ty input) ->
     (exists m, parses t input maps (POk m)) \/ (exists a b, parses t input maps (PErr (ConflictErr a b)))) /\
   (forall M (maps : reductmap T M) input, covers rules maps -> conflicts (t_actions t) = [] -> sentence rules start (map tk_ty input) ->
     exists m, parses t input maps (POk m)) /\
   (forall input, conflicts (t_actions t) = [] -> sentence rules start (map tk_ty input) -> validates t input true)).
Proof.
  exact (fun T OT dbg start eof rules g W Hg t Hm He Hs => conj
    (complete_any dbg start eof rules g W Hg SLR t Hm (or_introl slr_lalr) He Hs)
    (fun Hf => complete dbg start eof rules g W Hg SLR t Hm (or_introl slr_lalr) He Hf Hs)).
Qed.
Print Assumptions C14_slr_complete_partial.

Example C13_C14_example : wf_rules calc /\ grammar_new true "Z" calc "$" = Val (calc_g true) /\ term calc "$" /\ start_fresh calc "Z" /\
  covers calc calc_maps /\ sentence calc "Z" (map tk_ty calc_input) /\
  forall k, makes k true (calc_g true) (calc_tab k) /\ conflicts (t_actions (calc_tab k)) = [].
Proof.
  exact (conj calc_wf (conj (calc_gE true) (conj calc_eof (conj calc_fresh (conj calc_covers (conj calc_sentence (fun k => conj (calc_makes k) (calc_clean k)))))))).
Qed.

(** ** C15 *)
(** Z -> S; S -> A x | c A y; A -> a B; B -> b  has no conflicts under any method, Clr and Slr accept
    the sentence c a b y, and Lalr rejects it. *)
Theorem C15_lalr_complete_refuted :
  exists (rules : rulemap string) (start eof : string) (g : grammar string) (t : method -> tabler string) (input : list (token string unit)),
  wf_rules rules /\ grammar_new true start rules eof = Val g /\ (forall k, makes k true g (t k)) /\ term rules eof /\ start_fresh rules start /\
  (forall k, conflicts (t_actions (t k)) = []) /\ sentence rules start (map tk_ty input) /\
  validates (t LALR) input false /\ validates (t CLR) input true /\ validates (t SLR) input true.
Proof. exact lost_incomplete. Qed.
Print Assumptions C15_lalr_complete_refuted.

(** Lalr is complete when moving the dot keeps all lookaheads in the table it built ([carries], a
    decidable condition on the table).  Missing: the other tables, refuted above. *)
Theorem C15_lalr_complete_partial : forall (T : Type) (OT : Ord T) (dbg : bool) (start eof : T) (rules : rulemap T) (g : grammar T),
  wf_rules rules -> grammar_new dbg start rules eof = Val g -> forall t, makes LALR dbg g t -> carries t -> term rules eof -> dbg = true \/ single_start rules start ->
  (forall M (maps : reductmap T M) input, covers rules maps -> sentence rules start (map tk_ty input) ->
     (exists m, parses t input maps (POk m)) \/ (exists a b, parses t input maps (PErr (ConflictErr a b))) \/ parses t input maps (PErr IncompleteExec)) /\
  (start_fresh rules start ->
   (forall M (maps : reductmap T M) input, covers rules maps -> sentence rules start (map tk_ty input) ->
     (exists m, parses t input maps (POk m)) \/ (exists a b, parses t input maps (PErr (ConflictErr a b)))) /\
   (forall M (maps : reductmap T M) input, covers rules maps -> conflicts (t_actions t) = [] -> sentence rules start (map tk_ty input) ->
     exists m, parses t input maps (POk m)) /\
   (forall input, conflicts (t_actions t) = [] -> sentence rules start (map tk_ty input) -> validates t input true)).
Proof.
  exact (fun T OT dbg start eof rules g W Hg t Hm Hc He Hs => conj
    (complete_any dbg start eof rules g W Hg LALR t Hm (or_intror Hc) He Hs)
    (fun Hf => complete dbg start eof rules g W Hg LALR t Hm (or_intror Hc) He Hf Hs)).
Qed.
Print Assumptions C15_lalr_complete_partial.

Example C15_example : makes LALR true (calc_g true) (calc_tab LALR) /\ carries (calc_tab LALR).
Proof. exact (conj (calc_makes LALR) calc_carries). Qed.

(** ** C44: conflict-free parsers accept exactly the sentences *)
Theorem C44_exact : forall (T : Type) (OT : Ord T) (dbg : bool) (start eof : T) (rules : rulemap T) (g : grammar T),
  wf_rules rules -> grammar_new dbg start rules eof = Val g ->
  forall k t, makes k dbg g t -> k <> LALR \/ carries t -> term rules eof -> start_fresh rules start -> dbg = true \/ single_start rules start ->
  conflicts (t_actions t) = [] ->
  (forall M (maps : reductmap T M) input, covers rules maps -> ((exists m, parses t input maps (POk m)) <-> sentence rules start (map tk_ty input))) /\
  (forall input, validates t input true <-> sentence rules start (map tk_ty input)).
Proof. exact @exact_language. Qed.
Print Assumptions C44_exact.

(** ** C45: the value *)
(** ... and the value returned is that of the unique parse tree: any evaluation of the input from
    the start production gives it. *)
Theorem C45_exact_value : forall (T : Type) (OT : Ord T) (dbg : bool) (start eof : T) (rules : rulemap T) (g : grammar T),
  wf_rules rules -> grammar_new dbg start rules eof = Val g ->
  forall k t, makes k dbg g t -> k <> LALR \/ carries t -> term rules eof -> start_fresh rules start ->
  conflicts (t_actions t) = [] -> forall M (maps : reductmap T M) input m,
  parses t input maps (POk m) <-> exists rhs its it, prod_at rules start 0 rhs /\ evals_seq rules maps rhs input (its ++ [it]) /\ m = tk_item it.
Proof. exact @exact_value. Qed.
Print Assumptions C45_exact_value.

Example C44_C45_example : wf_rules calc /\ grammar_new true "Z" calc "$" = Val (calc_g true) /\ term calc "$" /\ start_fresh calc "Z" /\
  covers calc calc_maps /\ forall k, makes k true (calc_g true) (calc_tab k) /\ (k <> LALR \/ carries (calc_tab k)) /\ conflicts (t_actions (calc_tab k)) = [] /\
  parses (calc_tab k) calc_input calc_maps (POk 6) /\ validates (calc_tab k) (to_tokens (map tk_ty calc_bad)) false.
Proof. exact calc_exact. Qed.

(** ** C18, C46: unambiguity *)
(** S -> A; A -> a | S  has no conflicts under any method and two parse trees for a. *)
Theorem C18_clean_unambiguous_refuted :
  exists (rules : rulemap string) (start eof : string) (g : grammar string) (w : list string) (t1 t2 : tree string),
  wf_rules rules /\ grammar_new true start rules eof = Val g /\ term rules eof /\
  (forall k, exists t, makes k true g t /\ conflicts (t_actions t) = []) /\
  tree_of rules start w t1 /\ tree_of rules start w t2 /\ t1 <> t2.
Proof. exact cyc_ambiguous. Qed.
Print Assumptions C18_clean_unambiguous_refuted.

(** A conflict-free table means an unambiguous grammar when the start symbol occurs in no right-hand
    side and has one production.  Missing: recursive start symbols (refuted above) and, in release
    builds, several start productions. *)
Theorem C18_clean_unambiguous_partial : forall (T : Type) (OT : Ord T) (dbg : bool) (start eof : T) (rules : rulemap T) (g : grammar T),
  wf_rules rules -> grammar_new dbg start rules eof = Val g ->
  forall k t w t1 t2, k <> LALR \/ carries t -> makes k dbg g t -> term rules eof -> start_fresh rules start -> single_start rules start ->
  conflicts (t_actions t) = [] -> tree_of rules start w t1 -> tree_of rules start w t2 -> t1 = t2.
Proof. exact @clean_unamb. Qed.
Print Assumptions C18_clean_unambiguous_partial.

(** ** C46: debug builds need no assumption on the number of start productions *)
Theorem C46_clean_unambiguous_debug : forall (T : Type) (OT : Ord T) (start eof : T) (rules : rulemap T) (g : grammar T),
  wf_rules rules -> grammar_new true start rules eof = Val g ->
  forall k t, makes k true g t -> k <> LALR \/ carries t -> term rules eof -> start_fresh rules start -> conflicts (t_actions t) = [] ->
  forall w t1 t2, tree_of rules start w t1 -> tree_of rules start w t2 -> t1 = t2.
Proof. exact @clean_unamb_debug. Qed.
Print Assumptions C46_clean_unambiguous_debug.

Example C18_C46_example : wf_rules calc /\ grammar_new true "Z" calc "$" = Val (calc_g true) /\ term calc "$" /\ start_fresh calc "Z" /\ single_start calc "Z" /\
  (forall k, makes k true (calc_g true) (calc_tab k) /\ conflicts (t_actions (calc_tab k)) = []) /\ exists t, tree_of calc "Z" ["n"; "+"; "n"] t.
Proof.
  exact (conj calc_wf (conj (calc_gE true) (conj calc_eof (conj calc_fresh (conj calc_single (conj (fun k => conj (calc_makes k) (calc_clean k)) calc_tree)))))).
Qed.

(** ** C22 *)
(** In release builds a start rule with two productions makes every method report a token that
    begins a sentence. *)
Theorem C22_unexpected_refuted :
  exists (rules : rulemap string) (start eof : string) (g : grammar string) (used rest : list (token string unit)) (x : string) (es : list string),
  wf_rules rules /\ grammar_new false start rules eof = Val g /\ term rules eof /\
  (forall k, exists t maps, makes k false g t /\ covers rules maps /\ fails t (used ++ rest) maps rest (UnexpectedToken x es)) /\
  exists v, sentence rules start (map tk_ty used ++ x :: v).
Proof. exact two_false_alarm. Qed.
Print Assumptions C22_unexpected_refuted.

(** UnexpectedToken is never a false alarm when the start rule has one production (always so in
    debug builds); whatever follows the offending token, and even if the start symbol is recursive.
    Missing: several start productions in release builds, refuted above. *)
Theorem C22_unexpected_partial : forall (T : Type) (OT : Ord T) (dbg : bool) (start eof : T) (rules : rulemap T) (g : grammar T),
  wf_rules rules -> grammar_new dbg start rules eof = Val g ->
  forall k t, makes k dbg g t -> k <> LALR \/ carries t -> term rules eof -> dbg = true \/ single_start rules start ->
  forall M (maps : reductmap T M) used rest x es, covers rules maps -> fails t (used ++ rest) maps rest (UnexpectedToken x es) ->
  match rest with
  | [] => ~ sentence rules start (map tk_ty used)
  | tok :: _ => forall v, ~ sentence rules start (map tk_ty used ++ tk_ty tok :: v)
  end.
Proof. exact @unexpected_general. Qed.
Print Assumptions C22_unexpected_partial.

(** ** C58: the same for debug builds, Slr and Clr, as one statement *)
Theorem C58_unexpected_debug : forall (T : Type) (OT : Ord T) (start eof : T) (rules : rulemap T) (g : grammar T),
  wf_rules rules -> grammar_new true start rules eof = Val g -> term rules eof ->
  forall k t, makes k true g t -> k <> LALR ->
  forall M (maps : reductmap T M) used rest x es, covers rules maps -> fails t (used ++ rest) maps rest (UnexpectedToken x es) ->
  match rest with
  | [] => ~ sentence rules start (map tk_ty used)
  | tok :: _ => forall v, ~ sentence rules start (map tk_ty used ++ tk_ty tok :: v)
  end.
Proof.
  exact (fun T OT start eof rules g W Hg He k t Hm Hk => unexpected_general true start eof rules g W Hg k t Hm (or_introl Hk) He (or_introl eq_refl)).
Qed.
Print Assumptions C58_unexpected_debug.

Example C22_C58_example : wf_rules calc /\ grammar_new true "Z" calc "$" = Val (calc_g true) /\ term calc "$" /\ covers calc calc_maps /\
  forall k, makes k true (calc_g true) (calc_tab k) /\
    fails (calc_tab k) ([mkTok 1 "n"; mkTok 0 "+"] ++ [mkTok 0 "+"]) calc_maps [mkTok 0 "+"] (UnexpectedToken "+" ["("; "T"; "n"]).
Proof.
  exact (conj calc_wf (conj (calc_gE true) (conj calc_eof (conj calc_covers (fun k => conj (calc_makes k) (calc_fails k)))))).
Qed.

(** ** C24 *)
(** The list misses legal tokens under Slr (after b in  Z -> S; S -> A x | d A y; A -> b | b c  with
    lookahead y it lists only x, although c is legal), and lists nonterminals under every method. *)
Theorem C24_expected_refuted :
  exists (rules : rulemap string) (start eof : string) (g : grammar string) (t : method -> tabler string) (maps : reductmap string unit),
  wf_rules rules /\ grammar_new true start rules eof = Val g /\ (forall k, makes k true g (t k)) /\ term rules eof /\ start_fresh rules start /\
  covers rules maps /\
  (exists used rest x es a v, fails (t SLR) (used ++ rest) maps rest (UnexpectedToken x es) /\ sentence rules start (map tk_ty used ++ a :: v) /\ ~ In a es) /\
  (exists used rest x es a, (forall k, fails (t k) (used ++ rest) maps rest (UnexpectedToken x es)) /\ In a es /\ nonterm rules a).
Proof. exact miss_refutes. Qed.
Print Assumptions C24_expected_refuted.

(** Under every method the list is ascending, without duplicates, and without the offending symbol;
    under Clr it contains every token that can legally come next.  Missing: completeness under Slr
    and absence of nonterminals, refuted above. *)
Theorem C24_expected_partial : forall (T : Type) (OT : Ord T) (dbg : bool) (start eof : T) (rules : rulemap T) (g : grammar T),
  wf_rules rules -> grammar_new dbg start rules eof = Val g -> term rules eof ->
  (forall k t, makes k dbg g t -> forall M (maps : reductmap T M) used rest x es, Forall (term rules) (map tk_ty (used ++ rest)) ->
    fails t (used ++ rest) maps rest (UnexpectedToken x es) ->
    x = match rest with [] => eof | tok :: _ => tk_ty tok end /\ sorted es /\ ~ In x es) /\
  (dbg = true \/ single_start rules start -> forall t, makes CLR dbg g t ->
    forall M (maps : reductmap T M) used rest x es, M -> covers rules maps ->
    match rest with [] => True | tok :: _ => term rules (tk_ty tok) end ->
    fails t (used ++ rest) maps rest (UnexpectedToken x es) ->
    (forall a v, sentence rules start (map tk_ty used ++ a :: v) -> In a es) /\
    (sentence rules start (map tk_ty used) -> In eof es)).
Proof.
  exact (fun T OT dbg start eof rules g W Hg He => conj
    (fun k t Hm => expected_sorted dbg start eof rules g W Hg k t Hm He)
    (fun Hs t Hm => expected_general dbg start eof rules g W Hg t Hm He Hs)).
Qed.
Print Assumptions C24_expected_partial.

Example C24_example : wf_rules calc /\ grammar_new true "Z" calc "$" = Val (calc_g true) /\ term calc "$" /\ makes CLR true (calc_g true) (calc_tab CLR) /\
  covers calc calc_maps /\ Forall (term calc) (map tk_ty ([mkTok 1 "n"; mkTok 0 "+"] ++ [mkTok 0 "+"])) /\
  fails (calc_tab CLR) ([mkTok 1 "n"; mkTok 0 "+"] ++ [mkTok 0 "+"]) calc_maps [mkTok 0 "+"] (UnexpectedToken "+" ["("; "T"; "n"]) /\
  sentence calc "Z" (map tk_ty [mkTok 1 "n"; mkTok 0 "+"] ++ "n" :: []).
Proof.
  exact (conj calc_wf (conj (calc_gE true) (conj calc_eof (conj (calc_makes CLR) (conj calc_covers (conj calc_bad_terms (conj (calc_fails CLR) calc_sentence2))))))).
Qed.
