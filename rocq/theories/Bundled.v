(** The grammars shipped with the repository (/repo/grammars_tests.rs and wop's own grammar
    /repo/wop/src/out.rs), with a procedure that checks what the general theorems need. *)
From Coq Require Import List Bool Arith NArith String.
From Verif Require Import BTree Model Strings Grammars Wop Base Spec SpecP GrammarP Interface Wrap Mono Total Final Check Export Examples.
Import ListNotations.

(** ** checking a grammar *)
Section Exact.
Context {T : Type} {OT : Ord T}.
Variables (start eof : T) (l : list (T * list (list T))).
Notation rules := (grammar_map l).

Definition built (k : method) (n : nat) : res (grammar T * tabler T) :=
  do g <- grammar_new true start rules eof;
  match k with
  | SLR => do t <- slr_new true n g; Val (g, t)
  | CLR => do t <- clr_new true n g; Val (g, t)
  | LALR => do '(t, _) <- lalr_new true n g; Val (g, t)
  end.

Definition no_conflict (t : tabler T) : bool := match conflicts (t_actions t) with [] => true | _ => false end.

Definition exact_b (k : method) (n : nat) (order : list T) : bool :=
  match built k n with
  | Val (g, t) => no_conflict t && match k with LALR => carries_b t | _ => true end
  | _ => false
  end && fresh_b rules start && negb (nonterm_b rules eof) && unit_b rules order.

(** the parser built by method [k] decides the grammar's language *)
Definition decides_language (k : method) : Prop :=
  forall dbg, exists g t, grammar_new dbg start rules eof = Val g /\ makes k dbg g t /\
  (forall input, validates t input true <-> sentence rules start (map tk_ty input)) /\
  (forall input : list (token T unit), Forall (term rules) (map tk_ty input) ->
     (sentence rules start (map tk_ty input) /\ validates t input true) \/ (~ sentence rules start (map tk_ty input) /\ validates t input false)) /\
  (forall M (maps : reductmap T M) input, covers rules maps -> ((exists m, parses t input maps (POk m)) <-> sentence rules start (map tk_ty input))) /\
  (forall M (maps : reductmap T M) input, covers rules maps -> Forall (term rules) (map tk_ty input) ->
     (sentence rules start (map tk_ty input) /\ exists m, parses t input maps (POk m)) \/
     (~ sentence rules start (map tk_ty input) /\ exists e, parses t input maps (PErr e))).

Lemma exact_ok k n order : exact_b k n order = true -> decides_language k.
Proof.
  unfold exact_b. intros H. apply andb_prop in H as [H Hu]. apply andb_prop in H as [H He]. apply andb_prop in H as [H Hf].
  pose proof (grammar_map_wf l) as W. apply negb_true_iff in He. apply nonterm_b_false in He. apply (fresh_ok _ W) in Hf. apply (unit_ok _ W) in Hu.
  destruct (built k n) as [[g t]| |] eqn:E; [|discriminate..]. apply andb_prop in H as [Hc Hk]. unfold built in E. apply bind_val in E as (g0 & Hg & E).
  assert (g0 = g /\ makes k true g t) as [-> Hm].
  { destruct k; apply bind_val in E as (t0 & E1 & E); [| |destruct t0 as [t0 p]]; injection E as -> ->; split; auto; [exists n|exists n|exists n, p]; auto. }
  assert (k <> LALR \/ carries t) as Hk'. { destruct k; [left; discriminate..|right; now apply carries_ok]. }
  assert (conflicts (t_actions t) = []) as Hc'. { unfold no_conflict in Hc. destruct (conflicts (t_actions t)); [auto|discriminate]. }
  destruct (debug_release _ _ _ _ Hg) as (Hg' & _ & Hd). pose proof (Hd _ _ Hm) as Hm'.
  assert (single_start rules start) as Hs by exact (debug_single _ _ _ _ _ Hg eq_refl).
  intros dbg. exists g, t. assert (grammar_new dbg start rules eof = Val g) as HG by (destruct dbg; auto).
  assert (makes k dbg g t) as HM by (destruct dbg; auto). split; auto. split; auto.
  destruct (exact_language _ _ _ _ _ W HG k t HM Hk' He Hf (or_intror Hs) Hc') as [L1 L2].
  destruct (acyclic_total _ _ _ _ _ W HG k t HM He Hu) as [T1 T2]. split; [auto|]. split; [|split; [auto|]].
  - intros input Hi. destruct (T2 input Hi) as [[] Hb]; [left|right]; split; auto; [now apply L2|]. intros Hn. apply L2 in Hn.
    apply (validates_parses _ _ _ _ _ W HG _ _ _ _ HM) in Hb as (r & Hr & E1). apply (validates_parses _ _ _ _ _ W HG _ _ _ _ HM) in Hn as (r' & Hr' & E2).
    rewrite (proj2 (proj2 (deterministic dbg g)) _ _ _ _ _ _ Hr Hr') in E1. destruct r'; discriminate.
  - intros M maps input Hco Hi. destruct (T1 M maps input Hco Hi) as [[m|e] Hb]; [left|right]; split; eauto; [apply (L1 M maps); eauto|].
    intros Hn. apply (L1 M maps _ Hco) in Hn as (m & Hn). discriminate (proj2 (proj2 (deterministic dbg g)) _ _ _ _ _ _ Hb Hn).
Qed.
End Exact.

Local Open Scope string_scope.
Lemma dragon_book_exact k : decides_language "S" "$" dragon_book_rules k.
Proof. apply exact_ok with 60 ["S"; "C"]. destruct k; check. Qed.
Lemma serokell_exact k : decides_language "Start" "$" serokell_rules k.
Proof. apply exact_ok with 80 ["Term"; "Factor"; "Add"; "Start"]. destruct k; check. Qed.
Lemma ucalgary_exact : decides_language "S" "$" ucalgary_uni_oth_lr1_rules CLR.
Proof. apply exact_ok with 80 ["A"; "B"; "C"; "D"; "F"; "E"; "S"]. check. Qed.
Lemma wikipedia_exact k : decides_language "S" "$" wikipedia_rules k.
Proof. apply exact_ok with 60 ["B"; "E"; "S"]. destruct k; check. Qed.
Lemma puncs_exact k : decides_language "S'" "$" puncs_rules k.
Proof. apply exact_ok with 80 ["S"; "S'"]. destruct k; check. Qed.
Lemma scanner_exact k : decides_language "S" "$" scanner_rules k.
Proof. apply exact_ok with 300 ["Space"; "Digit"; "Alpha"; "Num"; "Word"; "Item"; "Phrase"; "S"]. destruct k; check. Qed.
Lemma wop_exact k : decides_language EntryPoint Eof wop_rules k.
Proof. apply exact_ok with 400 [IdentPath; RuleItem; RulePipe; Import; Alias; Rule; RuleDecl; Program; EntryPoint]. destruct k; check. Qed.

(** use a::* ; a: b = c | ( d? e ):x -> {} *)
Definition wop_input : list (token sym unit) := map (mkTok tt)
  [UseWord; Ident; PathAccess; Glob; Sc; Ident; TwoDots; Ident; Assign; Ident; Pipe; OpenParen; Ident; Optional; Ident; CloseParen; TwoDots; Ident; CodeBlock; Sc].
Lemma wop_example dbg : exists g t, wop_grammar dbg = Val g /\ makes SLR dbg g t /\
  (forall input, validates t input true <-> sentence (grammar_map wop_rules) EntryPoint (map tk_ty input)) /\
  exists input, validates t input true /\ validates t (tl input) false.
Proof.
  destruct (wop_exact SLR dbg) as (g & t & Hg & Hm & H1 & _). exists g, t. split; [exact Hg|]. split; [auto|]. split; [auto|]. exists wop_input.
  assert (exists n, (do g <- wop_grammar dbg; do t <- slr_new dbg n g; validate 100 t wop_input) = Val true /\
                    (do g <- wop_grammar dbg; do t <- slr_new dbg n g; validate 100 t (tl wop_input)) = Val false) as (n & E1 & E2).
  { exists 200. destruct dbg; split; check. }
  unfold wop_grammar in E1, E2. rewrite Hg in E1, E2. cbn [bind] in E1, E2. apply bind_val in E1 as (t1 & Et & E1). rewrite Et in E2. cbn [bind] in E2.
  assert (t1 = t) as -> by (eapply (proj1 (proj2 (deterministic dbg g)) SLR); [exists n; exact Et|exact Hm]).
  split; [exists 100; exact E1|exists 100; exact E2].
Qed.
