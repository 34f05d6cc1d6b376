(** More counterexamples and the examples beside C19 - C32, C37, C39, C40, C54, C55. *)
From Coq Require Import List Bool Arith String Lia.
From Verif Require Import BTree Model Show Strings Grammars Base Spec SpecP GrammarP FirstFollow Closure ActTab LR Interface Wrap Reduce Mono Total Final DfaParse Check Export ShowP Examples Refute.
Import ListNotations.
Local Open Scope string_scope.
Local Open Scope list_scope.
Local Notation length := List.length.

(** ** C19 - C21 *)
Lemma loop_refutes : exists (rules : rulemap string) (start eof : string) (g : grammar string) (t : tabler string) (maps : reductmap string unit) (input : list (token string unit)),
  wf_rules rules /\ grammar_new true start rules eof = Val g /\ makes SLR true g t /\ term rules eof /\ start_fresh rules start /\ conflicts (t_actions t) = [] /\
  covers rules maps /\ Forall (term rules) (map tk_ty input) /\ forall fuel, parser_parse fuel t input maps = Fuel.
Proof.
  exists loop, "Y", "$", loop_g, loop_t, (empty_map loop_g), (to_tokens ["c"; "y"]). split; [facts|]. split; [apply loop_gE|]. split; [apply loop_makes|].
  split; [facts|]. split; [facts|]. split; [apply loop_clean|]. split; [apply covers_ok; [facts|check]|]. split; [facts|]. apply loop_diverges.
Qed.

(** a grammar without useless rules: Z -> S; S -> C x | z C y; C -> D | c; D -> C *)
Definition loop2 := grammar_map [("Z", [["S"]]); ("S", [["C"; "x"]; ["z"; "C"; "y"]]); ("C", [["D"]; ["c"]]); ("D", [["C"]])].
Definition loop2_g := gof "Z" loop2 (calc_g true).
Definition loop2_t := tab SLR true 60 loop2_g.
Definition loop2_d (n : nat) := Nat.iter n next_conf (dfa_new (to_tokens ["c"; "y"]) (t_actions loop2_t) (empty_map loop2_g) "$").
Lemma loop2_refutes : exists (rules : rulemap string) (start eof : string) (g : grammar string) (t : tabler string) (maps : reductmap string unit) (input : list (token string unit)),
  wf_rules rules /\ grammar_new true start rules eof = Val g /\ makes SLR true g t /\ term rules eof /\ start_fresh rules start /\ productive rules /\ reachable rules start /\
  covers rules maps /\ Forall (term rules) (map tk_ty input) /\ forall fuel, parser_parse fuel t input maps = Fuel.
Proof.
  exists loop2, "Z", "$", loop2_g, loop2_t, (empty_map loop2_g), (to_tokens ["c"; "y"]). split; [facts|]. split; [check|]. split; [apply (tab_makes SLR); check|].
  split; [facts|]. split; [facts|]. split; [apply (productive_ok loop2 ltac:(facts) ["C"; "D"; "S"; "Z"]); check|].
  split; [apply (reachable_ok loop2 ltac:(facts) "Z" ["Z"; "S"; "C"; "D"]); check|].
  split; [apply covers_ok; [facts|check]|]. split; [facts|]. intros fuel.
  unfold parser_parse. assert (parser_dfa loop2_t (to_tokens ["c"; "y"]) (empty_map loop2_g) = Val (loop2_d 0)) as -> by check. cbn [bind].
  rewrite (start_diverges (fun d => d = loop2_d 0 \/ d = loop2_d 1 \/ d = loop2_d 2 \/ d = loop2_d 3)); [reflexivity| |now left].
  intros d [-> |[-> |[-> | ->]]].
  - split; [check|]. exists 5, (loop2_d 1). split; [check|]. auto.
  - split; [check|]. exists 5, (loop2_d 2). split; [check|]. auto.
  - split; [check|]. exists 5, (loop2_d 3). split; [check|]. auto.
  - split; [check|]. exists 5, (loop2_d 2). split; [check|]. auto.
Qed.

(** the same cyclic grammar and input under Clr *)
Lemma loop2_clr : wf_rules loop2 /\ grammar_new true "Z" loop2 "$" = Val loop2_g /\ makes CLR true loop2_g (tab CLR true 60 loop2_g) /\ term loop2 "$" /\
  covers loop2 (empty_map loop2_g) /\ Forall (term loop2) (map tk_ty (to_tokens ["c"; "y"])) /\ conflicts (t_actions (tab CLR true 60 loop2_g)) <> [] /\
  unit_chain loop2 "C" "C" /\ parses (tab CLR true 60 loop2_g) (to_tokens ["c"; "y"]) (empty_map loop2_g) (PErr (UnexpectedToken "y" ["x"])).
Proof.
  split; [facts|]. split; [check|]. split; [apply (tab_makes CLR); check|]. split; [facts|]. split; [apply covers_ok; [facts|check]|].
  split; [facts|]. split; [apply nonempty; check|]. split; [|exists 20; check].
  apply uc_more with (i := 0) (B := "D"); [apply prod_ok; [facts|check]|apply nonterm_b_true; check|].
  apply uc_one with (i := 0); [apply prod_ok; [facts|check]|apply nonterm_b_true; check].
Qed.

Lemma tri3_refutes : exists (rules : rulemap string) (start eof : string) (g : grammar string) (maps : reductmap string unit) (input : list (token string unit)),
  wf_rules rules /\ grammar_new false start rules eof = Val g /\ term rules eof /\ start_fresh rules start /\ covers rules maps /\
  forall k, k <> SLR -> exists t fuel p, makes k false g t /\ parser_parse fuel t input maps = Panic p.
Proof.
  exists tri3, "Z", "$", tri3_g, (empty_map tri3_g), (to_tokens ["B"]). split; [facts|]. split; [apply tri3_gE|]. split; [facts|]. split; [facts|].
  split; [apply covers_ok; [facts|check]|]. intros k Hk. exists (tab k false 60 tri3_g), 20, P_underflow. split; [apply tri3_makes|now apply tri3_panics].
Qed.

Lemma nt_facts : wf_rules nt /\ grammar_new true "Z" nt "$" = Val nt_g /\ term nt "$" /\ covers nt (empty_map nt_g) /\ nonterm nt "A" /\
  forall k, makes k true nt_g (tab k true 60 nt_g) /\ forall fuel, parser_parse fuel (tab k true 60 nt_g) (to_tokens ["A"]) (empty_map nt_g) = Fuel.
Proof.
  split; [facts|]. split; [apply nt_gE|]. split; [facts|]. split; [apply covers_ok; [facts|check]|]. split; [apply nonterm_b_true; check|].
  intros k. split; [apply nt_makes|apply nt_diverges].
Qed.

(** after the first shift on 1 + ( 2 + 3 ) the parser reduces T -> n on + *)
Lemma calc_reduces k : exists d row, reaches (calc_tab k) calc_input calc_maps d /\ calc_input = [mkTok 1 "n"] ++ d_buffer d /\ lookahead d = "+" /\ term calc "+" /\
  nth_error (t_actions (calc_tab k)) (d_top d) = Some row /\ bm_get (lookahead d) row = Some (Reduce "T" (["n"], 0)).
Proof.
  exists (calc_conf k 1), (match nth_error (t_actions (calc_tab k)) (d_top (calc_conf k 1)) with Some row => row | None => [] end).
  split; [|split; [destruct k; check|split; [destruct k; check|split; [facts|split; destruct k; check]]]].
  eapply reaches_round with (d := calc_conf k 0); [|split; [|exists 5]; destruct k; check].
  apply reaches_start. destruct k; check.
Qed.

Lemma calc_local k : exists d, reaches (calc_tab k) ([mkTok 1 "n"] ++ skipn 1 calc_input) calc_maps d /\ d_buffer d = skipn 1 calc_input /\
  hd_error (map tk_ty [mkTok 9 "+"]) = hd_error (map tk_ty (skipn 1 calc_input)).
Proof.
  exists (calc_conf k 1). split; [|split; [destruct k; check|check]]. change ([mkTok 1 "n"] ++ skipn 1 calc_input) with calc_input.
  eapply reaches_round with (d := calc_conf k 0); [|split; [|exists 5]; destruct k; check].
  apply reaches_start. destruct k; check.
Qed.

(** ** C25: Z -> S; S -> p A Y | q A x | q A y; Y -> x | y; A -> a  shrinks from 13 to 12 rows under Clr *)
Definition shrink := grammar_map [("Z", [["S"]]); ("S", [["p"; "A"; "Y"]; ["q"; "A"; "x"]; ["q"; "A"; "y"]]); ("Y", [["x"]; ["y"]]); ("A", [["a"]])].
Definition shrink_g := gof "Z" shrink (calc_g true).
Definition shrink_t := tab CLR true 60 shrink_g.
Lemma shrink_facts : wf_rules shrink /\ grammar_new true "Z" shrink "$" = Val shrink_g /\ makes CLR true shrink_g shrink_t /\
  exists t', reduce_equals true shrink_t = Val t' /\ length (t_actions shrink_t) = 13 /\ length (t_actions t') = 12.
Proof.
  split; [facts|]. split; [check|]. split; [apply (tab_makes CLR); check|].
  exists (match reduce_equals true shrink_t with Val t => t | _ => shrink_t end). split; [check|]. split; check.
Qed.

(** ** C27, C28 *)
Lemma tri2_refutes : exists (rules : rulemap string) (start eof : string) (g : grammar string) (t : method -> tabler string),
  wf_rules rules /\ grammar_new false start rules eof = Val g /\ (forall k, makes k false g (t k)) /\ term rules eof /\ start_fresh rules start /\
  conflicts (t_actions (t SLR)) = [] /\ conflicts (t_actions (t CLR)) <> [] /\ conflicts (t_actions (t LALR)) <> [].
Proof.
  exists tri2, "Z", "$", tri2_g, (fun k => tab k false 60 tri2_g). split; [facts|]. split; [apply tri2_gE|]. split; [apply tri2_makes|].
  split; [facts|]. split; [facts|]. split; [apply tri2_slr|]. split; [apply tri2_clr|apply tri2_lalr].
Qed.
Lemma hidden_refutes : exists (rules : rulemap string) (start eof : string) (g : grammar string) (t : method -> tabler string),
  wf_rules rules /\ grammar_new true start rules eof = Val g /\ (forall k, makes k true g (t k)) /\ term rules eof /\ start_fresh rules start /\
  conflicts (t_actions (t LALR)) = [] /\ conflicts (t_actions (t CLR)) <> [].
Proof.
  exists hidden, "Z", "$", hidden_g, (fun k => tab k true 60 hidden_g). split; [facts|]. split; [apply hidden_gE|]. split; [apply hidden_makes|].
  split; [facts|]. split; [facts|]. split; [apply hidden_lalr|apply hidden_clr].
Qed.

(** a grammar whose Lalr table is free of conflicts although its Slr table is not:
    Z -> S; S -> L = R | R; L -> * R | i; R -> L *)
Definition assign := grammar_map [("Z", [["S"]]); ("S", [["L"; "="; "R"]; ["R"]]); ("L", [["*"; "R"]; ["i"]]); ("R", [["L"]])].
Definition assign_g := gof "Z" assign (calc_g true).
Definition assign_t k := tab k true 60 assign_g.
Lemma assign_facts : wf_rules assign /\ grammar_new true "Z" assign "$" = Val assign_g /\ (forall k, makes k true assign_g (assign_t k)) /\ term assign "$" /\
  carries (assign_t LALR) /\ conflicts (t_actions (assign_t LALR)) = [] /\ conflicts (t_actions (assign_t SLR)) <> [].
Proof.
  split; [facts|]. split; [check|]. split; [intros k; apply tab_makes; destruct k; check|]. split; [facts|].
  split; [apply carries_ok; check|]. split; [check|apply nonempty; check].
Qed.

(** ** C30 *)
Lemma calc_dfa_refutes : exists (rules : rulemap string) (start eof : string) (g : grammar string) (maps : reductmap string nat) (input : list (token string nat)) (m : nat),
  wf_rules rules /\ grammar_new true start rules eof = Val g /\ term rules eof /\ start_fresh rules start /\ covers rules maps /\ Forall (term rules) (map tk_ty input) /\
  forall k, exists t d fuel p, makes k true g t /\ conflicts (t_actions t) = [] /\ parser_dfa t [] maps = Val d /\ parses t input maps (POk m) /\ dfa_parse fuel d input = Panic p.
Proof.
  exists calc, "Z", "$", (calc_g true), calc_maps, calc_input, 6. split; [apply calc_wf|]. split; [apply calc_gE|]. split; [apply calc_eof|]. split; [apply calc_fresh|].
  split; [apply calc_covers|]. split; [apply calc_input_terms|]. intros k. exists (calc_tab k), (calc_d0 k), 60, P_underflow.
  split; [apply calc_makes|]. split; [apply calc_clean|]. split; [apply calc_d0E|]. split; [apply calc_parses|apply calc_dfa_panics].
Qed.
(** an error before any reduction of the whole stack: ( ) *)
Lemma calc_dfa_same k : Forall (term calc) (map tk_ty [mkTok 0 "("; mkTok 0 ")"]) /\
  (forall d, reaches (calc_tab k) [mkTok 0 "("; mkTok 0 ")"] calc_maps d -> ~ empties (calc_tab k) d) /\
  exists r, parses (calc_tab k) [mkTok 0 "("; mkTok 0 ")"] calc_maps r.
Proof.
  split; [facts|]. split.
  - pose (d0 := dfa_new [mkTok 0 "("; mkTok 0 ")"] (t_actions (calc_tab k)) calc_maps "$").
    assert (forall d, reaches (calc_tab k) [mkTok 0 "("; mkTok 0 ")"] calc_maps d -> d = d0 \/ d = next_conf d0) as G.
    { induction 1 as [d E|d d' _ [-> | ->] [_ (f & E)]].
      - left. assert (parser_dfa (calc_tab k) [mkTok 0 "("; mkTok 0 ")"] calc_maps = Val d0) as E' by (destruct k; check). congruence.
      - right. assert (travel 5 d0 (lookahead d0) = Val (next_conf d0, Ok)) as E' by (destruct k; check).
        pose proof (travel_fun _ _ _ _ _ _ E E') as X. congruence.
      - exfalso. assert (exists d e, travel 5 (next_conf d0) (lookahead (next_conf d0)) = Val (d, Err e)) as (d & e & E').
        { exists (next_conf d0), (UnexpectedToken ")" ["("; "E"; "T"; "n"]). destruct k; check. }
        pose proof (travel_fun _ _ _ _ _ _ E E') as X. discriminate. }
    intros d R (_ & row & A & pr & E1 & E2 & _). destruct (G d R) as [-> | ->].
    + assert (match nth_error (t_actions (calc_tab k)) (d_top d0) with Some row => match bm_get (lookahead d0) row with Some (Reduce _ _) => false | _ => true end | None => true end = true) as E by (destruct k; check).
      rewrite E1, E2 in E. discriminate.
    + assert (match nth_error (t_actions (calc_tab k)) (d_top (next_conf d0)) with Some row => match bm_get (lookahead (next_conf d0)) row with Some (Reduce _ _) => false | _ => true end | None => true end = true) as E by (destruct k; check).
      rewrite E1, E2 in E. discriminate.
  - exists (PErr (UnexpectedToken ")" ["("; "E"; "T"; "n"])). exists 20. destruct k; check.
Qed.

(** ** C32 *)
Lemma rec2_disagree : exists (rules : rulemap string) (start eof : string) (g : grammar string) (t : method -> tabler string) (input : list (token string unit)),
  wf_rules rules /\ grammar_new true start rules eof = Val g /\ (forall k, makes k true g (t k)) /\ term rules eof /\
  conflicts (t_actions (t SLR)) = [] /\ validates (t SLR) input true /\ validates (t CLR) input false.
Proof.
  exists rec2, "S", "$", rec2_g, rec2_t, (to_tokens ["("; "a"]). split; [facts|]. split; [apply rec2_gE|]. split; [apply rec2_makes|]. split; [facts|].
  split; [apply rec2_clean|]. split; [apply rec2_accepts; discriminate|apply rec2_clr_rejects].
Qed.

(** ** C54: an unused rule shifts the FOLLOW column *)
Definition unused := grammar_map [("Z", [["S"]]); ("S", [["x"; "S"; "y"]; ["w"]]); ("A", [["a"]])].
Definition unused_g := gof "Z" unused (calc_g true).
Lemma unused_refutes : exists (rules : rulemap string) (start eof A : string) (g : grammar string),
  wf_rules rules /\ grammar_new true start rules eof = Val g /\ term rules eof /\ start_fresh rules start /\ nonterm rules A /\
  forall k, exists t f w w', makes k true g t /\ In (A, f, w) (tokens_table t) /\ bm_get A (t_follow t) = Some w' /\ w <> w'.
Proof.
  exists unused, "Z", "$", "S", unused_g. split; [facts|]. split; [check|]. split; [facts|]. split; [facts|]. split; [apply nonterm_b_true; check|].
  intros k. exists (tab k true 60 unused_g), ["w"; "x"], ["$"], ["$"; "y"]. split; [apply tab_makes; destruct k; check|].
  split; [|split; [destruct k; check|discriminate]]. assert (nth_error (tokens_table (tab k true 60 unused_g)) 1 = Some ("S", ["w"; "x"], ["$"])) as E by (destruct k; check).
  exact (nth_error_In _ _ E).
Qed.

Lemma calc_used : forall A, nonterm calc A -> A <> "Z" -> exists B i rhs, prod_at calc B i rhs /\ In A rhs /\ A <> B.
Proof.
  intros A HA N. exact (used_by_other _ _ _ _ _ (calc_gE true) A (calc_reachable A HA) N).
Qed.

Lemma calc_builds k : exists o, builds k true (calc_g true) (calc_tab k) o.
Proof. eapply makes_builds. apply calc_makes. Qed.

(** a full trace *)
Definition calc_dstart k : dfa string nat := dfa_new calc_input (t_actions (calc_tab k)) calc_maps "$".
Lemma calc_trace k : parser_dfa (calc_tab k) calc_input calc_maps = Val (calc_dstart k) /\
  exists l r, dfa_trace 40 (calc_dstart k) = Val (l, r) /\ length l = 16 /\ snd r = Ok.
Proof.
  split; [destruct k; check|]. exists (match dfa_trace 40 (calc_dstart k) with Val (l, _) => l | _ => [] end), (match dfa_trace 40 (calc_dstart k) with Val (_, r) => r | _ => (calc_dstart k, Ok) end).
  destruct k; repeat split; check.
Qed.
