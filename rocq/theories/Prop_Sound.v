(** C10 - C12, C16, C17 and the sharpened C43, C52, C56, C57 *)
From Coq Require Import List Bool Arith String.
From Verif Require Import BTree Model Strings Spec SpecP Interface Wrap Final Check More StartRed Export Examples Refute.
Import ListNotations.
Local Open Scope string_scope.
Local Open Scope list_scope.

(** ** C10 *)
(** Clr accepts a non-sentence when the start symbol is recursive and the end-of-input symbol
    occurs in a production: S -> A; A -> a | ( S $ x  accepts  ( a . *)
Theorem C10_clr_sound_refuted :
  exists (rules : rulemap string) (start eof : string) (g : grammar string) (t : tabler string) (input : list (token string unit)),
  wf_rules rules /\ grammar_new true start rules eof = Val g /\ makes CLR true g t /\ term rules eof /\
  validates t input true /\ ~ sentence rules start (map tk_ty input).
Proof.
  exact (ex_intro _ rec1 (ex_intro _ "S" (ex_intro _ "$" (ex_intro _ rec1_g (ex_intro _ (tab CLR true 60 rec1_g) (ex_intro _ (to_tokens ["("; "a"])
    (conj (grammar_map_wf _) (conj (rec1_gE true) (conj rec1_makes (conj rec1_eof (conj rec1_accepts rec1_not))))))))))).
Qed.
Print Assumptions C10_clr_sound_refuted.

(** Clr is sound when the start symbol occurs in no right-hand side, or the end-of-input symbol
    does not.  Missing: grammars violating both, refuted above. *)
Theorem C10_clr_sound_partial : forall (T : Type) (OT : Ord T) (dbg : bool) (start eof : T) (rules : rulemap T) (g : grammar T),
  wf_rules rules -> grammar_new dbg start rules eof = Val g -> forall t, makes CLR dbg g t -> term rules eof ->
  start_fresh rules start \/ (forall A i rhs, prod_at rules A i rhs -> ~ In eof rhs) ->
  (forall M (maps : reductmap T M) input m, parses t input maps (POk m) -> sentence rules start (map tk_ty input)) /\
  (forall input, validates t input true -> sentence rules start (map tk_ty input)).
Proof.
  exact (fun T OT dbg start eof rules g W Hg t Hm He H => match H with
    | or_introl Hf => sound dbg start eof rules g W Hg CLR t Hm He Hf
    | or_intror Hn => sound_eof dbg start eof rules g W Hg t Hm He Hn end).
Qed.
Print Assumptions C10_clr_sound_partial.

(** ** C57: Clr with a recursive start symbol *)
Theorem C57_clr_sound_recursive : forall (T : Type) (OT : Ord T) (dbg : bool) (start eof : T) (rules : rulemap T) (g : grammar T),
  wf_rules rules -> grammar_new dbg start rules eof = Val g -> forall t, makes CLR dbg g t -> term rules eof ->
  (forall A i rhs, prod_at rules A i rhs -> ~ In eof rhs) ->
  (forall M (maps : reductmap T M) input m, parses t input maps (POk m) -> sentence rules start (map tk_ty input)) /\
  (forall input, validates t input true -> sentence rules start (map tk_ty input)).
Proof. exact @sound_eof. Qed.
Print Assumptions C57_clr_sound_recursive.

Example C57_example : wf_rules rec2 /\ grammar_new true "S" rec2 "$" = Val rec2_g /\ makes CLR true rec2_g (rec2_t CLR) /\ term rec2 "$" /\
  (forall A i rhs, prod_at rec2 A i rhs -> ~ In "$" rhs) /\ ~ start_fresh rec2 "S" /\
  validates (rec2_t CLR) (to_tokens ["a"]) true /\ validates (rec2_t CLR) (to_tokens ["("; "a"]) false.
Proof. exact rec2_meets. Qed.

(** ** C11, C12 *)
(** S -> A; A -> a | ( S )  is free of conflicts, yet Slr and Lalr accept  ( a . *)
Theorem C11_slr_sound_refuted :
  exists (rules : rulemap string) (start eof : string) (g : grammar string) (t : tabler string) (input : list (token string unit)),
  wf_rules rules /\ grammar_new true start rules eof = Val g /\ makes SLR true g t /\ term rules eof /\ conflicts (t_actions t) = [] /\
  validates t input true /\ ~ sentence rules start (map tk_ty input).
Proof.
  exact (ex_intro _ rec2 (ex_intro _ "S" (ex_intro _ "$" (ex_intro _ rec2_g (ex_intro _ (rec2_t SLR) (ex_intro _ (to_tokens ["("; "a"])
    (conj (grammar_map_wf _) (conj (rec2_gE true) (conj (rec2_makes SLR) (conj rec2_eof (conj (rec2_clean SLR) (conj (rec2_accepts SLR ltac:(discriminate)) rec2_not)))))))))))).
Qed.
Print Assumptions C11_slr_sound_refuted.

Theorem C12_lalr_sound_refuted :
  exists (rules : rulemap string) (start eof : string) (g : grammar string) (t : tabler string) (input : list (token string unit)),
  wf_rules rules /\ grammar_new true start rules eof = Val g /\ makes LALR true g t /\ term rules eof /\ conflicts (t_actions t) = [] /\
  validates t input true /\ ~ sentence rules start (map tk_ty input).
Proof.
  exact (ex_intro _ rec2 (ex_intro _ "S" (ex_intro _ "$" (ex_intro _ rec2_g (ex_intro _ (rec2_t LALR) (ex_intro _ (to_tokens ["("; "a"])
    (conj (grammar_map_wf _) (conj (rec2_gE true) (conj (rec2_makes LALR) (conj rec2_eof (conj (rec2_clean LALR) (conj (rec2_accepts LALR ltac:(discriminate)) rec2_not)))))))))))).
Qed.
Print Assumptions C12_lalr_sound_refuted.

(** Slr and Lalr are sound when the start symbol occurs in no right-hand side.  Missing: recursive
    start symbols, refuted above. *)
Theorem C11_slr_sound_partial : forall (T : Type) (OT : Ord T) (dbg : bool) (start eof : T) (rules : rulemap T) (g : grammar T),
  wf_rules rules -> grammar_new dbg start rules eof = Val g -> forall t, makes SLR dbg g t -> term rules eof -> start_fresh rules start ->
  (forall M (maps : reductmap T M) input m, parses t input maps (POk m) -> sentence rules start (map tk_ty input)) /\
  (forall input, validates t input true -> sentence rules start (map tk_ty input)).
Proof. exact (fun T OT dbg start eof rules g W Hg => sound dbg start eof rules g W Hg SLR). Qed.
Print Assumptions C11_slr_sound_partial.

Theorem C12_lalr_sound_partial : forall (T : Type) (OT : Ord T) (dbg : bool) (start eof : T) (rules : rulemap T) (g : grammar T),
  wf_rules rules -> grammar_new dbg start rules eof = Val g -> forall t, makes LALR dbg g t -> term rules eof -> start_fresh rules start ->
  (forall M (maps : reductmap T M) input m, parses t input maps (POk m) -> sentence rules start (map tk_ty input)) /\
  (forall input, validates t input true -> sentence rules start (map tk_ty input)).
Proof. exact (fun T OT dbg start eof rules g W Hg => sound dbg start eof rules g W Hg LALR). Qed.
Print Assumptions C12_lalr_sound_partial.

(** ** C43: soundness of the three methods (conflicts or not, debug or release) *)
Theorem C43_sound : forall (T : Type) (OT : Ord T) (dbg : bool) (start eof : T) (rules : rulemap T) (g : grammar T),
  wf_rules rules -> grammar_new dbg start rules eof = Val g -> forall k t, makes k dbg g t -> term rules eof -> start_fresh rules start ->
  (forall M (maps : reductmap T M) input m, parses t input maps (POk m) -> sentence rules start (map tk_ty input)) /\
  (forall input, validates t input true -> sentence rules start (map tk_ty input)).
Proof. exact @sound. Qed.
Print Assumptions C43_sound.

Example C10_C11_C12_C43_example : wf_rules calc /\ grammar_new true "Z" calc "$" = Val (calc_g true) /\ term calc "$" /\ start_fresh calc "Z" /\
  forall k, makes k true (calc_g true) (calc_tab k) /\ parses (calc_tab k) calc_input calc_maps (POk 6) /\
    validates (calc_tab k) (to_tokens (map tk_ty calc_input)) true.
Proof.
  exact (conj calc_wf (conj (calc_gE true) (conj calc_eof (conj calc_fresh (fun k => conj (calc_makes k) (conj (calc_parses k) (calc_validates k))))))).
Qed.

(** ** C16 *)
(** The stack at every moment: a path of the table from state 0 whose items carry the values of the
    consumed tokens; and the result of a successful parse is the value of the last symbol of a
    production of the start symbol. *)
Theorem C16_parse_folds : forall (T : Type) (OT : Ord T) (dbg : bool) (start eof : T) (rules : rulemap T) (g : grammar T),
  wf_rules rules -> grammar_new dbg start rules eof = Val g -> forall M (maps : reductmap T M) k t, makes k dbg g t -> term rules eof ->
  forall input,
  (Forall (term rules) (map tk_ty input) -> forall d, reaches t input maps d ->
     exists used, input = used ++ d_buffer d /\ evals_seq rules maps (rev (map tk_ty (d_items d))) used (rev (d_items d))) /\
  (forall m, parses t input maps (POk m) ->
     exists u i rhs its it, prod_at rules start i rhs /\ evals_seq rules maps (u ++ rhs) input (its ++ [it]) /\ m = tk_item it) /\
  (start_fresh rules start -> forall m, parses t input maps (POk m) ->
     exists rhs its it, prod_at rules start 0 rhs /\ evals_seq rules maps rhs input (its ++ [it]) /\ m = tk_item it).
Proof.
  exact (fun T OT dbg start eof rules g W Hg M maps k t Hm He input => conj
    (fun Hi d R => proj2 (proj2 (reaches_stack dbg start eof rules g W Hg maps k t Hm He input d R Hi)))
    (conj (parses_folds dbg start eof rules g W Hg maps k t Hm He input)
          (fun Hf m => parses_evals dbg start eof rules g W Hg maps k t Hm He input m Hf))).
Qed.
Print Assumptions C16_parse_folds.

Example C16_example : wf_rules calc /\ grammar_new true "Z" calc "$" = Val (calc_g true) /\ term calc "$" /\ start_fresh calc "Z" /\
  Forall (term calc) (map tk_ty calc_input) /\ forall k, makes k true (calc_g true) (calc_tab k) /\ parses (calc_tab k) calc_input calc_maps (POk 6).
Proof.
  exact (conj calc_wf (conj (calc_gE true) (conj calc_eof (conj calc_fresh (conj calc_input_terms (fun k => conj (calc_makes k) (calc_parses k))))))).
Qed.

(** ** C56: the stack *)
Theorem C56_stack : forall (T : Type) (OT : Ord T) (dbg : bool) (start eof : T) (rules : rulemap T) (g : grammar T),
  wf_rules rules -> grammar_new dbg start rules eof = Val g -> forall M (maps : reductmap T M) k t, makes k dbg g t -> term rules eof ->
  forall input d, reaches t input maps d -> Forall (term rules) (map tk_ty input) ->
  stack_path t (d_states d) (map tk_ty (d_items d)) /\ hd_error (d_states d) = Some (d_top d) /\
  exists used, input = used ++ d_buffer d /\ evals_seq rules maps (rev (map tk_ty (d_items d))) used (rev (d_items d)).
Proof. exact @reaches_stack. Qed.
Print Assumptions C56_stack.

(** after three rounds on 1 + ( 2 + 3 ): E covers 1, then + *)
Example C56_example : forall k, exists d, reaches (calc_tab k) calc_input calc_maps d /\ Forall (term calc) (map tk_ty calc_input) /\
  map tk_ty (d_items d) = ["+"; "E"] /\ List.length (d_buffer d) = 5.
Proof. exact calc_reaches. Qed.

(** ** C17 *)
(** Both reductor maps below have a reductor for every production and differ only at the start
    rule; the result is the same, so it is not what the start rule's reductor computes. *)
Theorem C17_start_value_refuted :
  exists (rules : rulemap string) (start eof : string) (g : grammar string) (input : list (token string nat)) (maps : reductmap string nat) (v : nat),
  wf_rules rules /\ grammar_new true start rules eof = Val g /\ term rules eof /\ start_fresh rules start /\ covers rules maps /\
  forall k, exists t, makes k true g t /\ parses t input maps (POk v) /\
    forall it, evals rules maps start input it -> tk_item it <> v.
Proof.
  exact (ex_intro _ calc (ex_intro _ "Z" (ex_intro _ "$" (ex_intro _ (calc_g true) (ex_intro _ calc_input (ex_intro _ calc_maps (ex_intro _ 6
    (conj calc_wf (conj (calc_gE true) (conj calc_eof (conj calc_fresh (conj calc_covers
      (fun k => ex_intro _ (calc_tab k) (conj (calc_makes k) (conj (calc_parses k) calc_start_value))))))))))))))).
Qed.
Print Assumptions C17_start_value_refuted.

(** [parse] returns the last argument the start rule's reductor would be given; it returns the
    start rule's value when that reductor returns its last argument.  Missing: other start
    reductors, refuted above. *)
Theorem C17_start_value_partial : forall (T : Type) (OT : Ord T) (dbg : bool) (start eof : T) (rules : rulemap T) (g : grammar T),
  wf_rules rules -> grammar_new dbg start rules eof = Val g -> forall k t, makes k dbg g t -> term rules eof -> start_fresh rules start ->
  forall M (maps : reductmap T M) fs f, bm_get start maps = Some fs -> nth_error fs 0 = Some f ->
  (forall input m, parses t input maps (POk m) -> exists its it, evals rules maps start input (mkTok (f (its ++ [it])) start) /\ m = tk_item it) /\
  ((forall its it, f (its ++ [it]) = tk_item it) -> forall input m, parses t input maps (POk m) -> evals rules maps start input (mkTok m start)).
Proof.
  exact (fun T OT dbg start eof rules g W Hg k t Hm He Hf M maps fs f H1 H2 => conj
    (start_last dbg start eof rules g W Hg k t Hm He Hf M maps fs f H1 H2)
    (fun H3 => start_last_value dbg start eof rules g W Hg k t Hm He Hf M maps fs f H1 H2 H3)).
Qed.
Print Assumptions C17_start_value_partial.

Example C17_example : wf_rules calc /\ grammar_new true "Z" calc "$" = Val (calc_g true) /\ term calc "$" /\ start_fresh calc "Z" /\
  (exists f, bm_get "Z" calc_maps_last = Some [f] /\ forall its it, f (its ++ [it]) = tk_item it) /\
  forall k, makes k true (calc_g true) (calc_tab k) /\ parses (calc_tab k) calc_input calc_maps_last (POk 6).
Proof.
  exact (conj calc_wf (conj (calc_gE true) (conj calc_eof (conj calc_fresh (conj (proj1 calc_last_facts) (fun k => conj (calc_makes k) (proj2 calc_last_facts k))))))).
Qed.

(** ** C52: the start rule's reductors are never consulted *)
Theorem C52_start_reductors_unused : forall (T : Type) (OT : Ord T) (dbg : bool) (start eof : T) (rules : rulemap T) (g : grammar T),
  wf_rules rules -> grammar_new dbg start rules eof = Val g -> forall k t, makes k dbg g t ->
  forall M (maps1 maps2 : reductmap T M), (forall A, A <> start -> bm_get A maps1 = bm_get A maps2) ->
  forall fuel input, parser_parse fuel t input maps1 = parser_parse fuel t input maps2.
Proof. exact @start_unused. Qed.
Print Assumptions C52_start_reductors_unused.

(** in particular parsing needs no reductor for the start rule at all *)
Example C52_example : wf_rules calc /\ grammar_new true "Z" calc "$" = Val (calc_g true) /\ (forall k, makes k true (calc_g true) (calc_tab k)) /\
  (forall A, A <> "Z" -> bm_get A calc_maps = bm_get A calc_maps_nostart) /\ bm_get "Z" calc_maps_nostart = None /\
  forall k, parses (calc_tab k) calc_input calc_maps_nostart (POk 6).
Proof. exact (conj calc_wf (conj (calc_gE true) (conj calc_makes calc_nostart_facts))). Qed.
