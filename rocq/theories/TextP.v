(** The texts determine what they are texts of. *)
From Coq Require Import List Bool Arith Lia Ascii String DecimalString DecimalNat.
From Verif Require Import BTree Model Show Strings Trace Base Spec Interface TextSpec Text.
Import ListNotations.
Local Open Scope string_scope.
Local Open Scope list_scope.
Local Open Scope nat_scope.
Local Notation "a ^^ b" := (String.append a b) (at level 60, right associativity).
Local Notation length := List.length.

Lemma ass a b c : (a ^^ b) ^^ c = a ^^ b ^^ c.
Proof. induction a as [|x a IH]; [reflexivity|]. cbn. now rewrite IH. Qed.
Lemma app_nil_s a : a ^^ "" = a.
Proof. induction a as [|x a IH]; [reflexivity|]. cbn. now rewrite IH. Qed.
Lemma pre a s t : a ^^ s = a ^^ t -> s = t.
Proof. induction a as [|x a IH]; [auto|]. cbn. intros [= E]. auto. Qed.

(** ** numbers *)
Definition digit (c : ascii) : bool := let n := nat_of_ascii c in (48 <=? n) && (n <=? 57).
Fixpoint all_digits (s : string) : bool := match s with "" => true | String c s' => digit c && all_digits s' end.
Lemma decimal_digits n : all_digits (decimal n) = true.
Proof.
  unfold decimal. assert (H : forall u, all_digits (NilEmpty.string_of_uint u) = true) by (induction u; simpl; auto).
  unfold NilZero.string_of_uint. destruct (Nat.to_uint n); try apply (H (Decimal.D0 _)); try apply H; try reflexivity.
Qed.
Lemma decimal_inj n m : decimal n = decimal m -> n = m.
Proof.
  intros E. unfold decimal in E. apply (f_equal NilZero.uint_of_string) in E. rewrite !NilZero.usu in E.
  - injection E as E. now apply Unsigned.to_uint_inj.
  - intros H. destruct m; [discriminate|]. pose proof (Unsigned.of_to (S m)) as Q. rewrite H in Q. discriminate.
  - intros H. destruct n; [discriminate|]. pose proof (Unsigned.of_to (S n)) as Q. rewrite H in Q. discriminate.
Qed.
Lemma decimal_nonempty n : decimal n <> "".
Proof. unfold decimal, NilZero.string_of_uint. destruct (Nat.to_uint n); discriminate. Qed.
Definition no_digit (s : string) : Prop := match s with "" => True | String c _ => digit c = false end.
Lemma digits_read a b s t : all_digits a = true -> all_digits b = true -> no_digit s -> no_digit t -> a ^^ s = b ^^ t -> a = b /\ s = t.
Proof.
  revert b. induction a as [|x a IH]; intros [|y b] Ha Hb Hs Ht E; cbn in *.
  - auto.
  - subst s. cbn in Hs. rewrite Hs in Hb. discriminate.
  - subst t. cbn in Ht. rewrite Ht in Ha. discriminate.
  - injection E as -> E. apply andb_prop in Ha as [_ Ha]. apply andb_prop in Hb as [_ Hb]. destruct (IH b Ha Hb Hs Ht E) as [-> ->]. auto.
Qed.
Lemma decimal_read n m s t : no_digit s -> no_digit t -> decimal n ^^ s = decimal m ^^ t -> n = m /\ s = t.
Proof. intros Hs Ht E. apply digits_read in E as [E ->]; auto using decimal_digits. split; auto. now apply decimal_inj. Qed.

(** ** lists *)
(** each element can be read when followed by [","] or by the closing character *)
Definition item_read {A} (f : A -> string) (c : ascii) : Prop :=
  (forall x y s t a b, a = ","%char \/ a = c -> b = ","%char \/ b = c -> f x ^^ String a s = f y ^^ String b t -> x = y /\ String a s = String b t) /\
  forall x, match f x with "" => False | String d _ => d <> c end.
Lemma concat_cons sep x y l : String.concat sep (x :: y :: l) = x ^^ sep ^^ String.concat sep (y :: l).
Proof. reflexivity. Qed.
Lemma items_read {A} (f : A -> string) c : c <> ","%char -> item_read f c -> forall l m s t,
  String.concat ", " (map f l) ^^ String c s = String.concat ", " (map f m) ^^ String c t -> l = m /\ s = t.
Proof.
  intros Hc [Hr Hs]. assert (F : forall x w z, f x ^^ w <> String c z).
  { intros x w z E. pose proof (Hs x) as H. destruct (f x) as [|d r]; [easy|]. cbn in E. congruence. }
  induction l as [|x l IH]; intros [|y m] s t E.
  - cbn in E. injection E as ->. auto.
  - exfalso. cbn [map] in E. destruct (map f m) as [|z r]; [cbn in E|rewrite concat_cons, !ass in E; cbn [String.concat map append] in E]; exact (F _ _ _ (eq_sym E)).
  - exfalso. cbn [map] in E. destruct (map f l) as [|z r]; [cbn in E|rewrite concat_cons, !ass in E; cbn [String.concat map append] in E]; exact (F _ _ _ E).
  - destruct l as [|x' l], m as [|y' m]; cbn [map] in E.
    + cbn in E. apply Hr in E as [-> E]; auto. injection E as ->. auto.
    + rewrite concat_cons, !ass in E. cbn [String.concat append] in E. apply Hr in E as [-> E]; auto. congruence.
    + rewrite concat_cons, !ass in E. cbn [String.concat append] in E. apply Hr in E as [-> E]; auto. congruence.
    + rewrite !concat_cons, !ass in E. cbn [append] in E. apply Hr in E as [-> E]; auto. injection E as E.
      apply (IH (y' :: m)) in E as [E ->]. now rewrite E.
Qed.

(** ** [{:?}] of strings *)
Lemma escape_first c : exists d r, escape c = String d r /\ d <> """"%char.
Proof. destruct c as [[][][][][][][][]]; eexists _, _; (split; [reflexivity|discriminate]). Qed.
Definition first (s : string) : option ascii := match s with "" => None | String c _ => Some c end.
Lemma escape_read a b s t : escape a ^^ s = escape b ^^ t -> a = b /\ s = t.
Proof.
  (* decode: the escape of a character determines it and where it ends *)
  pose (dec := fun w : string =>
    match w with
    | String "\" (String d r) =>
        if Ascii.eqb d "0" then Some (ascii_of_nat 0%nat, r) else if Ascii.eqb d "t" then Some (ascii_of_nat 9%nat, r)
        else if Ascii.eqb d "n" then Some (ascii_of_nat 10%nat, r) else if Ascii.eqb d "r" then Some (ascii_of_nat 13%nat, r)
        else if Ascii.eqb d """" then Some (ascii_of_nat 34%nat, r) else if Ascii.eqb d "\" then Some (ascii_of_nat 92%nat, r)
        else match r with
          | String _ (String h (String h' r')) =>
              let v := fun c => (let n := nat_of_ascii c in if n <=? 57 then n - 48 else n - 87)%nat in
              if Ascii.eqb h' "}" then Some (ascii_of_nat (v h), r') else
              match r' with String _ r'' => Some (ascii_of_nat (16 * v h + v h')%nat, r'') | _ => None end
          | _ => None
          end
    | String c r => Some (c, r)
    | _ => None
    end%char).
  assert (D : forall c r, dec (escape c ^^ r) = Some (c, r)).
  { intros c r. destruct c as [[][][][][][][][]]; reflexivity. }
  intros E. apply (f_equal dec) in E. rewrite !D in E. injection E as -> ->. auto.
Qed.
Lemma escapes_read a b s t : String.concat "" (map escape a) ^^ String """" s = String.concat "" (map escape b) ^^ String """" t -> a = b /\ s = t.
Proof.
  assert (C : forall c l, String.concat "" (map escape (c :: l)) = escape c ^^ String.concat "" (map escape l)).
  { intros c [|d l]; [cbn [map String.concat]; now rewrite app_nil_s|reflexivity]. }
  revert b. induction a as [|x a IH]; intros [|y b] E; rewrite ?C, ?ass in E.
  - cbn in E. injection E as ->. auto.
  - destruct (escape_first y) as (d & r & Ed & Hd). rewrite Ed in E. cbn in E. congruence.
  - destruct (escape_first x) as (d & r & Ed & Hd). rewrite Ed in E. cbn in E. congruence.
  - apply escape_read in E as [-> E]. apply IH in E as [-> ->]. auto.
Qed.
Lemma str_debug_read a b s t : str_debug a ^^ s = str_debug b ^^ t -> a = b /\ s = t.
Proof.
  unfold str_debug. rewrite !ass. cbn [append]. intros [= E]. apply escapes_read in E as [E ->]. split; auto.
  rewrite <- (string_of_list_ascii_of_string a), E. apply string_of_list_ascii_of_string.
Qed.
Theorem str_legible : legible str_debug.
Proof.
  split; [intros x y s t _ _ E; now apply str_debug_read in E|]. intros x. unfold str_debug. cbn. intuition discriminate.
Qed.

Lemma scons c s t : String c s = String c t -> s = t.
Proof. congruence. Qed.
Ltac strip E := repeat (match type of E with String _ _ = String _ _ => apply scons in E end).

Section P.
Context {T : Type} {OT : Ord T}.
Variable show : T -> string.
Hypothesis leg : legible show.

Lemma show_read x y s t : stops s -> stops t -> show x ^^ s = show y ^^ t -> x = y /\ s = t.
Proof. intros Hs Ht E. assert (x = y) as -> by now apply (proj1 leg) in E. apply pre in E. auto. Qed.
Lemma show_first x : match show x with EmptyString => False | String c _ => ~ In c [" "; "."; "]"; "{"; "}"]%char end.
Proof. apply leg. Qed.
Lemma show_item c : In c ["]"; "}"]%char -> item_read show c.
Proof.
  intros Hc. split.
  - intros x y s t a b Ha Hb E. apply show_read in E; auto; cbn; simpl in Hc; destruct Ha, Hb; subst; tauto.
  - intros x. pose proof (show_first x) as H. destruct (show x); [easy|]. intros ->. apply H. simpl in *. tauto.
Qed.
Lemma vec_read l m s t : vec_text show l ^^ s = vec_text show m ^^ t -> l = m /\ s = t.
Proof.
  unfold vec_text, listing. rewrite !ass. cbn [append]. intros [= E]. apply items_read in E as [-> ->]; auto; [discriminate|]. apply show_item. simpl. auto.
Qed.
Lemma set_read l m s t : set_text show l ^^ s = set_text show m ^^ t -> l = m /\ s = t.
Proof.
  unfold set_text, listing. rewrite !ass. cbn [append]. intros [= E]. apply items_read in E as [-> ->]; auto; [discriminate|]. apply show_item. simpl. auto.
Qed.
Lemma prod_read p q s t : prod_text show p ^^ s = prod_text show q ^^ t -> p = q /\ s = t.
Proof.
  destruct p as [l i], q as [m j]. unfold prod_text. cbn [fst snd]. rewrite !ass. cbn [append]. intros E. strip E. apply vec_read in E as [-> E]. strip E.
  apply decimal_read in E as [-> E]; try reflexivity. strip E. subst. auto.
Qed.
Lemma action_read a : forall b s t, action_text show a ^^ s = action_text show b ^^ t -> a = b /\ s = t.
Proof.
  induction a as [n|n|x p| |a1 IH1 a2 IH2]; intros [m|m|y q| |b1 b2] s t E; cbn [action_text] in E; rewrite ?ass in E; cbn [append] in E; try discriminate E.
  - strip E. apply decimal_read in E as [-> E]; try reflexivity. strip E. subst. auto.
  - strip E. apply decimal_read in E as [-> E]; try reflexivity. strip E. subst. auto.
  - strip E. apply show_read in E as [-> E]; [|cbn; auto|cbn; auto]. strip E. apply prod_read in E as [-> E]. strip E. subst. auto.
  - strip E. subst. auto.
  - strip E. apply IH1 in E as [-> E]. strip E. apply IH2 in E as [-> E]. strip E. subst. auto.
Qed.
Theorem action_inj a b : action_text show a = action_text show b -> a = b.
Proof. intros E. apply (f_equal (fun w => w ^^ "")) in E. now apply action_read in E. Qed.
Theorem error_inj e f : error_text show e = error_text show f -> e = f.
Proof.
  destruct e as [x l| |a b| | |], f as [y m| |c d| | |]; cbn [error_text append]; intros E; try reflexivity; try discriminate E.
  - strip E. apply show_read in E as [-> E]; [|cbn; auto|cbn; auto]. strip E. apply (f_equal (fun w => w ^^ "")) in E. apply vec_read in E as [-> _]. auto.
  - strip E. apply action_read in E as [-> E]. strip E. now apply action_inj in E as ->.
Qed.
Lemma error_not_ok e : error_text show e <> "ok".
Proof. destruct e; discriminate. Qed.

(** ** positions *)
Fixpoint after (l : list T) : string := match l with [] => " " | x :: l' => " " ^^ show x ^^ after l' end.
Fixpoint body (l : list T) (k : nat) : string :=
  match k with
  | 0 => match l with [] => " . " | x :: l' => " . " ^^ show x ^^ after l' end
  | S k' => match l with [] => " " ^^ body [] k' | x :: l' => " " ^^ show x ^^ body l' k' end
  end.
Definition cell (l : list T) (k i : nat) : string :=
  " " ^^ (if i =? k then ". " else "") ^^ match nth_error l i with Some x => show x | None => "" end.
Lemma sconcat_cons x l : String.concat "" (x :: l) = x ^^ String.concat "" l.
Proof. destruct l; [cbn; now rewrite app_nil_s|reflexivity]. Qed.
Lemma cells_after l : String.concat "" (map (fun i => " " ^^ match nth_error l i with Some x => show x | None => "" end) (seq 0 (S (length l)))) = after l.
Proof.
  induction l as [|x l IH]; [reflexivity|]. cbn [length]. rewrite <- cons_seq, <- seq_shift. cbn [map]. rewrite map_map. cbn [nth_error]. rewrite sconcat_cons, IH. cbn [after]. now rewrite ass.
Qed.
Lemma cells_body k : forall l, String.concat "" (map (cell l k) (seq 0 (S (Nat.max k (length l))))) = body l k.
Proof.
  induction k as [|k IH]; intros l.
  - cbn [Nat.max]. destruct l as [|x l]; [reflexivity|]. cbn [length]. rewrite <- cons_seq, <- seq_shift. cbn [map]. rewrite map_map, sconcat_cons.
    change (map (fun x0 => cell (x :: l) 0 (S x0)) (seq 0 (S (length l)))) with (map (fun i => " " ^^ match nth_error l i with Some x => show x | None => "" end) (seq 0 (S (length l)))).
    rewrite cells_after. cbn [body]. unfold cell. cbn [nth_error Nat.eqb]. now rewrite !ass.
  - destruct l as [|x l].
    + specialize (IH []). cbn [length] in *. rewrite Nat.max_0_r in *. rewrite <- cons_seq, <- seq_shift. cbn [map]. rewrite map_map, sconcat_cons.
      rewrite (map_ext (fun i => cell [] (S k) (S i)) (cell [] k)), IH; [reflexivity|]. intros i. unfold cell. cbn [nth_error Nat.eqb]. now destruct i.
    + cbn [length Nat.max]. rewrite <- cons_seq, <- seq_shift. cbn [map]. rewrite map_map, sconcat_cons.
      rewrite (map_ext (fun i => cell (x :: l) (S k) (S i)) (cell l k)), IH by reflexivity. cbn [body]. unfold cell. cbn [nth_error Nat.eqb append]. reflexivity.
Qed.
Lemma pos_body p : pos_text show p = show (p_rule p) ^^ " =" ^^ body (fst (p_seq p)) (p_point p) ^^ " " ^^ set_text show (p_look p).
Proof. unfold pos_text. rewrite <- cells_body. reflexivity. Qed.
Ltac clash := let H := fresh in match goal with E : _ = show ?x ^^ _ |- _ => pose proof (show_first x) as H; destruct (show x); [easy|cbn in E; injection E as <- _; exfalso; apply H; simpl; tauto]
  | E : show ?x ^^ _ = _ |- _ => pose proof (show_first x) as H; destruct (show x); [easy|cbn in E; injection E as -> _; exfalso; apply H; simpl; tauto] end.
Lemma after_stops l s : stops (after l ^^ s).
Proof. destruct l; cbn; auto. Qed.
Lemma body_stops l k s : stops (body l k ^^ s).
Proof. destruct l, k; cbn; auto. Qed.
Lemma after_read l : forall m s t, after l ^^ String " " s = after m ^^ String " " t -> l = m /\ s = t.
Proof.
  induction l as [|x l IH]; intros [|y m] s t E; cbn [after append] in E; rewrite ?ass in E.
  - strip E. subst. auto.
  - strip E. clash.
  - strip E. clash.
  - strip E. apply show_read in E as [-> E]; auto using after_stops. apply IH in E as [-> ->]. auto.
Qed.
Lemma body_read k : forall j l m s t, body l k ^^ String " " (String "{" s) = body m j ^^ String " " (String "{" t) -> l = m /\ k = j /\ s = t.
Proof.
  assert (B : forall j m s, exists w, body m j ^^ String " " s = String " " w) by (intros [|j] [|y m] s; cbn; eauto).
  induction k as [|k IH]; intros [|j] [|x l] [|y m] s t E; cbn [body append] in E; rewrite ?ass in E; strip E.
  - subst. auto.
  - clash.
  - clash.
  - apply show_read in E as [-> E]; auto using after_stops. apply after_read in E as [-> E]. strip E. subst. auto.
  - destruct (B j [] (String "{" t)) as [w Ew]. rewrite Ew in E. discriminate.
  - clash.
  - destruct (B j [] (String "{" t)) as [w Ew]. rewrite Ew in E. discriminate.
  - clash.
  - destruct (B k [] (String "{" s)) as [w Ew]. rewrite Ew in E. discriminate.
  - destruct (B k [] (String "{" s)) as [w Ew]. rewrite Ew in E. discriminate.
  - clash.
  - clash.
  - apply (IH j [] []) in E as (_ & -> & ->). auto.
  - destruct (B k [] (String "{" s)) as [w Ew]. rewrite Ew in E. clash.
  - destruct (B j [] (String "{" t)) as [w Ew]. rewrite Ew in E. clash.
  - apply show_read in E as [-> E]; auto using body_stops. apply IH in E as (-> & -> & ->). auto.
Qed.
Lemma pos_read p q s t : pos_text show p ^^ s = pos_text show q ^^ t ->
  p_rule p = p_rule q /\ fst (p_seq p) = fst (p_seq q) /\ p_point p = p_point q /\ p_look p = p_look q /\ s = t.
Proof.
  rewrite !pos_body, !ass. intros E. apply show_read in E as [-> E]; [|cbn; auto|cbn; auto]. cbn [append] in E. strip E.
  assert (S : forall l u, exists v, set_text show l ^^ u = String "{" v) by (intros; unfold set_text, listing; rewrite !ass; cbn; eauto).
  destruct (S (p_look p) s) as [v Ev], (S (p_look q) t) as [w Ew]. pose proof E as E0. rewrite Ev, Ew in E. apply body_read in E as (E1 & E2 & _).
  rewrite E1, E2 in E0. apply pre in E0. strip E0. apply set_read in E0 as [E3 ->]. auto.
Qed.
End P.
