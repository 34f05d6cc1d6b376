(** Examples for C102 to C106 *)
From Coq Require Import List Bool Arith Lia Ascii String.
From Verif Require Import BTree Model Show Strings Trace Base Spec SpecP Grammars Interface Wrap Check LR1Spec Examples Refute Refute2 TraceSpec TraceEx Wop WopPrint StatesSpec TextSpec Text TextP.
Import ListNotations.
Local Open Scope string_scope.
Local Open Scope list_scope.
Local Open Scope nat_scope.
Local Notation "a ^^ b" := (String.append a b) (at level 60, right associativity).
Local Notation length := List.length.

(** ** wop's names *)
Definition letter (c : ascii) : bool := let n := nat_of_ascii c in ((65 <=? n) && (n <=? 90)) || ((97 <=? n) && (n <=? 122)).
Fixpoint letters (s : string) : bool := match s with "" => true | String c s' => letter c && letters s' end.
Lemma letters_read a b s t : letters a = true -> letters b = true -> stops s -> stops t -> a ^^ s = b ^^ t -> a = b.
Proof.
  assert (N : forall c r, stops (String c r) -> letter c = true -> False).
  { intros c r H L. cbn in H. repeat (destruct H as [<-|H]; [discriminate L|]). exact H. }
  revert b. induction a as [|x a IH]; intros [|y b] Ha Hb Hs Ht E; cbn in *; auto.
  - subst s. apply andb_prop in Hb as [Hb _]. destruct (N y (b ^^ t) Hs Hb).
  - subst t. apply andb_prop in Ha as [Ha _]. destruct (N x (a ^^ s) Ht Ha).
  - injection E as -> E. apply andb_prop in Ha as [_ Ha]. apply andb_prop in Hb as [_ Hb]. f_equal. auto.
Qed.
Lemma sym_name_inj a b : sym_name a = sym_name b -> a = b.
Proof. destruct a, b; intros E; first [reflexivity|discriminate E]. Qed.
Lemma sym_legible : legible sym_name.
Proof.
  split.
  - intros x y s t Hs Ht E. apply sym_name_inj. apply (letters_read _ _ s t); auto; [destruct x|destruct y]; reflexivity.
  - intros x. destruct x; cbn; intuition discriminate.
Qed.

(** ** alternatives written twice *)
Lemma twins_ok (rules : rulemap string) : (forall A r, In (A, r) rules -> NoDup (map fst (r_prods r))) -> no_twins rules.
Proof.
  intros H A i j rhs (r & n & Hr & Hi) (r' & n' & Hr' & Hj). assert (r' = r) as -> by congruence. apply bm_get_in in Hr. apply H in Hr.
  apply (proj1 (NoDup_nth_error _) Hr i j).
  - apply nth_error_Some. rewrite (map_nth_error fst i (r_prods r) Hi). discriminate.
  - now rewrite (map_nth_error fst i (r_prods r) Hi), (map_nth_error fst j (r_prods r) Hj).
Qed.
Definition alone {A} (dec : forall x y : A, {x = y} + {x <> y}) (l : list A) : bool := length (nodup dec l) =? length l.
Lemma calc_twins : no_twins calc.
Proof.
  apply twins_ok. assert (forallb (fun e => alone (list_eq_dec string_dec) (map fst (r_prods (snd e)))) calc = true) as H by check.
  rewrite forallb_forall in H. intros A r Hin. apply H in Hin. cbn [snd] in Hin. apply Nat.eqb_eq in Hin.
  apply NoDup_incl_NoDup with (nodup (list_eq_dec string_dec) (map fst (r_prods r))); [apply NoDup_nodup|lia|]. intros x. apply nodup_In.
Qed.

(** Z -> S; S -> a | a *)
Definition twin := grammar_map [("Z", [["S"]]); ("S", [["a"]; ["a"]])].
Definition twin_g := gof "Z" twin (calc_g true).
Lemma twins_refute : exists (rules : rulemap string) (start eof : string) (g : grammar string),
  wf_rules rules /\ grammar_new true start rules eof = Val g /\ term rules eof /\ start_fresh rules start /\
  forall k, exists t q row pos pos', makes k true g t /\ nth_error (t_states t) q = Some row /\ In pos row /\ In pos' row /\ pos <> pos' /\
    pos_text str_debug pos = pos_text str_debug pos'.
Proof.
  exists twin, "Z", "$", twin_g. split; [facts|]. split; [check|]. split; [facts|]. split; [facts|]. intros k.
  exists (tab k true 60 twin_g), 0, (nth 0 (t_states (tab k true 60 twin_g)) []),
    (nth 0 (nth 0 (t_states (tab k true 60 twin_g)) []) (g_basis twin_g)), (nth 1 (nth 0 (t_states (tab k true 60 twin_g)) []) (g_basis twin_g)).
  split; [apply tab_makes; destruct k; check|]. split; [destruct k; check|].
  assert (length (nth 0 (t_states (tab k true 60 twin_g)) []) = 3) as L by (destruct k; check).
  split; [apply nth_In; lia|]. split; [apply nth_In; lia|]. split; [|destruct k; check].
  intros E. apply (f_equal p_seq) in E. destruct k; vm_compute in E; discriminate.
Qed.

(** ** the texts of calc *)
Lemma calc_pos_texts : option_map (map (pos_text str_debug)) (nth_error (t_states (calc_tab LALR)) 5) =
  Some ["""E"" = ""E"" . ""+"" ""T""  {"")"", ""+""}"; """T"" = ""("" ""E"" . "")""  {""$"", "")"", ""+""}"].
Proof. check. Qed.
Lemma calc_error_texts : map (error_text str_debug) [UnexpectedToken "+" ["("; "T"; "n"]; UnexpectedToken "+, n" ["("]; ConflictErr (Shift 3) (Reduce "T" (["n"], 0)); IncompleteExec] =
  ["unexpected token ""+"". expected [""("", ""T"", ""n""]"; "unexpected token ""+, n"". expected [""(""]";
   "conflicting action Shift(3) and Reduce(""T"", ([""n""], 0))"; "finished the parsing without consume entire buffer"].
Proof. check. Qed.
Lemma calc_run_text : run_text str_debug bad_rows (Err (UnexpectedToken "+" ["("; "T"; "n"])) =
  [["1"; "0"; "[""n"", ""+"", ""+"", ""$""]"; "0:""n"""; "Shift(4)"];
   ["2"; "0 ""n"" 4"; "[""+"", ""+"", ""$""]"; "4:""+"""; "Reduce(""T"", ([""n""], 0))"];
   ["3"; "0 ""T"" 3"; "[""+"", ""+"", ""$""]"; "3:""+"""; "Reduce(""E"", ([""T""], 1))"];
   ["4"; "0 ""E"" 2"; "[""+"", ""+"", ""$""]"; "2:""+"""; "Shift(6)"];
   ["5"; "0 ""E"" 2 ""+"" 6"; "[""+"", ""$""]"; "6:""+"""; "n/a"];
   ["state"; "unexpected token ""+"". expected [""("", ""T"", ""n""]"]].
Proof. check. Qed.
Lemma calc_actions_text : fst (actions_text str_debug (calc_tab LALR)) = ["""$"""; """("""; """)"""; """+"""; """n"""; """E"""; """T"""; """Z"""] /\
  firstn 3 (snd (actions_text str_debug (calc_tab LALR))) =
    [[""; "Shift(1)"; ""; ""; "Shift(4)"; "0"; "Goto(2)"; "Goto(3)"; ""];
     [""; "Shift(1)"; ""; ""; "Shift(4)"; "1"; "Goto(5)"; "Goto(3)"; ""];
     ["Acc"; ""; ""; "Shift(6)"; ""; "2"; ""; ""; ""]].
Proof. split; check. Qed.

(** the texts of symbols may be illegible: with [show] the identity, two errors have the same message *)
Lemma plain_illegible : error_text (fun s : string => s) (UnexpectedToken "x" ["a, b"]) = error_text (fun s => s) (UnexpectedToken "x" ["a"; "b"]).
Proof. check. Qed.

Lemma calc_kernels k : map (fun t => (length (t_states t), bm_values (t_kernels t))) [calc_tab SLR; calc_tab LALR] =
    [(9, [0; 5; 2; 6; 8; 3; 1; 7; 4]); (9, [0; 2; 5; 6; 8; 3; 1; 7; 4])] /\ length (t_states (calc_tab k)) = length (t_kernels (calc_tab k)).
Proof. split; [check|destruct k; check]. Qed.
Lemma calc_path : exists qs xs, stack_path (calc_tab LALR) (8 :: qs) xs.
Proof.
  exists [6; 2; 0], ["T"; "+"; "E"]. repeat apply stack_push; [constructor|..]; (eexists _, _; split; [check|split; [check|]]); [right|left|right]; constructor.
Qed.
