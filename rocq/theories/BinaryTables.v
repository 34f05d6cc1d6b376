(** The tables the [lrp] binary prints before it reads lines (C98) *)
From Coq Require Import List Bool Arith String.
From Verif Require Import BTree Strings Model Show Base Spec SpecP GrammarP Interface Final Export Examples ShowP Trace Binary BinaryP StatesText.
Import ListNotations.
Local Open Scope string_scope.
Local Open Scope list_scope.
Local Notation length := List.length.

Lemma main_tables dbg fuel t toks rows acts : main_setup dbg fuel = Val (t, (toks, rows, acts)) ->
  length (t_states t) = 14 /\
  toks = [("'S", ["("; "["; "{"], ["$"]); ("S", ["("; "["; "{"], ["$"; ")"; "]"; "}"])] /\
  (NoDup (map (fun '(q, x, _, _, _) => (q, x)) rows) /\ forall q x n, (exists fk c, In (q, x, fk, n, c) rows) <-> moves t q x n) /\
  length acts = 14 /\
  (forall q row, nth_error (t_actions t) q = Some row ->
     nth_error acts q = Some (map (fun x => bm_get x row) ["$"; "("; ")"; "["; "]"; "{"; "}"], q, map (fun x => bm_get x row) ["'S"; "S"])).
Proof.
  intros E. unfold main_setup in E. apply bind_val in E as (g & Eg & E). apply bind_val in E as ([t' p] & Et & E).
  apply bind_val in E as (rows' & Er & E). injection E as -> E1 -> E2.
  assert (B : builds LALR dbg g t (Some p)) by (exists fuel, p; auto). pose proof (builds_makes _ _ _ _ _ B) as Hm.
  destruct (setup_ok dbg) as (t8 & p8 & tb8 & E8 & Et8 & _). rewrite Eg in Et8. cbn [bind] in Et8.
  assert (t8 = t) as -> by (apply (proj1 (proj2 (deterministic dbg g)) LALR); [exists 80, p8; exact Et8|exact Hm]). clear Et8.
  assert (match main_setup dbg 80 with Val (t, _) => length (t_states t) = 14 /\ tokens_table t = [("'S", ["("; "["; "{"], ["$"]); ("S", ["("; "["; "{"], ["$"; ")"; "]"; "}"])] /\
    actions_columns t = (["$"; "("; ")"; "["; "]"; "{"; "}"], ["'S"; "S"]) | _ => False end) as HV by (destruct dbg; vm_compute; auto).
  rewrite E8 in HV. destruct HV as (V1 & V2 & V3). split; auto. split; [congruence|].
  destruct (states_rows_full _ _ _ _ _ R_wf Eg _ _ _ B) as (rows2 & Er2 & N & H1 & H2). rewrite Er in Er2. injection Er2 as <-. split; [split; auto|].
  - intros q x n. split.
    + intros (fk & c & H). apply H2 in H as (row & _ & _ & H & _). exact H.
    + intros H. destruct (moves_dot _ _ _ _ _ R_wf Eg _ _ _ _ _ Hm H) as (row & pos & K). destruct (proj2 (H1 q x)) as (fk & n' & c & Hin); [eauto|].
      destruct (H2 _ _ _ _ _ Hin) as (_ & _ & _ & Hv & _). rewrite (moves_fun _ _ _ _ _ R_wf Eg _ _ _ _ _ _ Hm H Hv). eauto.
  - destruct (actions_rows _ _ _ _ _ R_wf Eg _ _ Hm) as (ts & nts & Ec & _ & _ & _ & _ & La & Ha). rewrite V3 in Ec. injection Ec as <- <-.
    rewrite <- E2. split; [congruence|]. intros q row Hq. apply (Ha _ _ Hq).
Qed.
