(** The concrete syntax of WopSpec.v is unambiguous: a reader of token sequences that finds every
    reading there is. *)
From Coq Require Import List Bool Arith Lia.
From Verif Require Import BTree Model Wop WopSpec.
Import ListNotations.
Local Open Scope list_scope.

Fixpoint more_path (a : span) (ts : list lexeme) : span * list lexeme :=
  match ts with
  | (PathAccess, _) :: (Ident, b) :: r => more_path (fst a, snd b) r
  | _ => (a, ts)
  end.
Definition read_path (ts : list lexeme) : option (span * list lexeme) :=
  match ts with (Ident, s) :: r => Some (more_path s r) | _ => None end.
Definition read_quest (ts : list lexeme) : bool * list lexeme :=
  match ts with (Optional, _) :: r => (true, r) | _ => (false, ts) end.
Definition read_aka (ts : list lexeme) : option span * bool * list lexeme :=
  match ts with
  | (TwoDots, _) :: (Ident, a) :: r => (Some a, false, r)
  | (TwoDots, _) :: (Clone, _) :: (Ident, a) :: r => (Some a, true, r)
  | _ => (None, false, ts)
  end.
Definition read_marks (ts : list lexeme) : bool * option span * bool * list lexeme :=
  let '(o, r) := read_quest ts in let '(a, c, r') := read_aka r in (o, a, c, r').

Definition starts_item (ts : list lexeme) : bool :=
  match ts with (Ident, _) :: _ | (StrLit, _) :: _ | (OpenParen, _) :: _ => true | _ => false end.

Fixpoint read_item (n : nat) (ts : list lexeme) : option (pat * list lexeme) :=
  match n with 0 => None | S n =>
    match ts with
    | (OpenParen, _) :: r =>
        match read_alts n r with
        | Some (vs, (CloseParen, _) :: r') => let '(o, a, c, r'') := read_marks r' in Some (PGroup vs o a c, r'')
        | _ => None
        end
    | (StrLit, s) :: r => let '(o, a, c, r') := read_marks r in Some (PSym s o a c, r')
    | _ => match read_path ts with
        | Some (s, r) => let '(o, a, c, r') := read_marks r in Some (PSym s o a c, r')
        | None => None
        end
    end
  end
with read_pipe (n : nat) (ts : list lexeme) : option (list pat * list lexeme) :=
  match n with 0 => None | S n =>
    match read_item n ts with
    | Some (p, r) =>
        if starts_item r then match read_pipe n r with Some (ps, r') => Some (p :: ps, r') | None => None end
        else Some ([p], r)
    | None => None
    end
  end
with read_alt (n : nat) (ts : list lexeme) : option (list pat * span * list lexeme) :=
  match n with 0 => None | S n =>
    match read_pipe n ts with
    | Some (ps, (CodeBlock, c) :: r) => Some (ps, c, r)
    | Some (ps, r) => Some (ps, (0, 0), r)
    | None => None
    end
  end
with read_alts (n : nat) (ts : list lexeme) : option (list (list pat * span) * list lexeme) :=
  match n with 0 => None | S n =>
    match read_alt n ts with
    | Some (v, (Pipe, _) :: r) => match read_alts n r with Some (vs, r') => Some (v :: vs, r') | None => None end
    | Some (v, r) => Some ([v], r)
    | None => None
    end
  end.

Definition read_decl (n : nat) (ts : list lexeme) : option (decl * list lexeme) :=
  match ts with
  | (UseWord, _) :: r =>
      match read_path r with
      | Some (s, (PathAccess, _) :: (Glob, g) :: r') => Some (DUse (fst s, snd g), r')
      | Some (s, r') => Some (DUse s, r')
      | None => None
      end
  | (AliasWord, _) :: (Ident, tk) :: r | (AliasWord, _) :: (StrLit, tk) :: r =>
      match read_path r with Some (s, r') => Some (DAlias tk s, r') | None => None end
  | _ =>
      match read_path ts with
      | Some (name, (TwoDots, _) :: r) =>
          match read_path r with
          | Some (ty, (Assign, _) :: r') => match read_alts n r' with Some (alts, r'') => Some (DRule name ty alts, r'') | None => None end
          | _ => None
          end
      | _ => None
      end
  end.
Fixpoint read_file (n : nat) (ts : list lexeme) : option (list decl) :=
  match n with 0 => None | S n =>
    match read_decl n ts with
    | Some (d, (Sc, _) :: []) => Some [d]
    | Some (d, (Sc, _) :: r) => option_map (cons d) (read_file n r)
    | _ => None
    end
  end.

(** ** whatever it finds is there *)
Scheme item_ind' := Minimality for item_toks Sort Prop
  with pipe_ind' := Minimality for pipe_toks Sort Prop
  with alt_ind' := Minimality for alt_toks Sort Prop
  with alts_ind' := Minimality for alts_toks Sort Prop.

Lemma more_path_sound n : forall a r b r', List.length r <= n -> more_path a r = (b, r') -> forall ts, path_toks ts a -> exists us, r = us ++ r' /\ path_toks (ts ++ us) b.
Proof.
  induction n as [|n IH]; intros a r b r' Hn E ts Ht.
  - destruct r; [|simpl in Hn; lia]. injection E as <- <-. exists []. simpl. now rewrite app_nil_r.
  - destruct r as [|[x s] [|[y u] r]].
    + injection E as <- <-. exists []. simpl. now rewrite app_nil_r.
    + assert ((b, r') = (a, [(x, s)])) as [= -> ->] by (rewrite <- E; simpl; destruct x; reflexivity). exists []. simpl. now rewrite app_nil_r.
    + destruct (match x, y with PathAccess, Ident => true | _, _ => false end) eqn:Exy.
      * destruct x; try discriminate. destruct y; try discriminate. simpl in E. assert (Hl : List.length r <= n) by (simpl in Hn; lia). destruct (IH _ _ _ _ Hl E (ts ++ [(PathAccess, s); (Ident, u)])) as (us & -> & Hus); [now constructor|].
        exists ((PathAccess, s) :: (Ident, u) :: us). split; [reflexivity|]. now rewrite <- app_assoc in Hus.
      * assert ((b, r') = (a, (x, s) :: (y, u) :: r)) as [= -> ->] by (rewrite <- E; simpl; destruct x; try reflexivity; destruct y; try reflexivity; discriminate). exists []. simpl. now rewrite app_nil_r.
Qed.
Lemma read_path_sound ts s r : read_path ts = Some (s, r) -> exists us, ts = us ++ r /\ path_toks us s.
Proof.
  intros E. destruct ts as [|[x u] ts]; [discriminate|]. destruct x; try discriminate. simpl in E. destruct (more_path u ts) as [s' r'] eqn:Em. injection E as -> ->.
  destruct (more_path_sound _ _ _ _ _ (le_n _) Em [(Ident, u)] (path_one _)) as (us & -> & H). now exists ((Ident, u) :: us).
Qed.
Lemma read_marks_sound ts o a c r : read_marks ts = (o, a, c, r) -> exists q k, ts = q ++ k ++ r /\ quest_toks q o /\ aka_toks k a c.
Proof.
  unfold read_marks. destruct (read_quest ts) as [o' r1] eqn:Eq. destruct (read_aka r1) as [[a' c'] r2] eqn:Ek. intros [= -> -> -> ->].
  assert (exists q, ts = q ++ r1 /\ quest_toks q o) as (q & -> & Hq).
  { destruct ts as [|[x s] ts]; [injection Eq as <- <-; exists []; split; [reflexivity|constructor]|]. destruct x; injection Eq as <- <-; try (exists []; split; [reflexivity|constructor]). exists [(Optional, s)]. split; [reflexivity|constructor]. }
  exists q. assert (exists k, r1 = k ++ r /\ aka_toks k a c) as (k & -> & Hk); [|exists k; auto].
  clear Eq Hq. assert (Z : forall ts, (None, false, ts) = (a, c, r) -> exists k, ts = k ++ r /\ aka_toks k a c) by (intros ts' [= <- <- <-]; exists []; split; [reflexivity|constructor]).
  destruct r1 as [|[x s] r1]; [now apply Z|]. destruct x; try (now apply Z). destruct r1 as [|[y u] r1]; [now apply Z|]. destruct y; try (now apply Z).
  - destruct r1 as [|[z v] r1]; [now apply Z|]. destruct z; try (now apply Z). injection Ek as <- <- <-. exists [(TwoDots, s); (Clone, u); (Ident, v)]. split; [reflexivity|constructor].
  - injection Ek as <- <- <-. exists [(TwoDots, s); (Ident, u)]. split; [reflexivity|constructor].
Qed.
Lemma pipe_cons us p : item_toks us p -> forall ts ps, pipe_toks ts ps -> pipe_toks (us ++ ts) (p :: ps).
Proof.
  intros Hp ts ps H. induction H as [| | |ts q Hq|ts ps ts' q _ IH Hq| | | |] using pipe_ind' with (P := fun _ _ => True) (P1 := fun _ _ => True) (P2 := fun _ _ => True); auto.
  - apply (pipe_more us [p]); [now constructor|exact Hq].
  - rewrite app_assoc. apply (pipe_more (us ++ ts) (p :: ps)); assumption.
Qed.
Lemma alts_cons us v : alt_toks us v -> forall p ts vs, alts_toks ts vs -> alts_toks (us ++ (Pipe, p) :: ts) (v :: vs).
Proof.
  intros Hv p ts vs H. induction H as [| | | | | | |ts w Hw|ts vs q ts' w H IH Hw] using alts_ind' with (P := fun _ _ => True) (P0 := fun _ _ => True) (P1 := fun _ _ => True); auto.
  - apply (alts_more us [v]); [now constructor|exact Hw].
  - change (us ++ (Pipe, p) :: ts ++ (Pipe, q) :: ts') with (us ++ ((Pipe, p) :: ts) ++ (Pipe, q) :: ts'). rewrite app_assoc.
    apply (alts_more (us ++ (Pipe, p) :: ts) (v :: vs)); assumption.
Qed.
Lemma read_sound n :
  (forall ts p r, read_item n ts = Some (p, r) -> exists us, ts = us ++ r /\ item_toks us p) /\
  (forall ts ps r, read_pipe n ts = Some (ps, r) -> exists us, ts = us ++ r /\ pipe_toks us ps) /\
  (forall ts v r, read_alt n ts = Some (v, r) -> exists us, ts = us ++ r /\ alt_toks us v) /\
  (forall ts vs r, read_alts n ts = Some (vs, r) -> exists us, ts = us ++ r /\ alts_toks us vs).
Proof.
  induction n as [|n (H1 & H2 & H3 & H4)]; [repeat split; discriminate|]. repeat split.
  - intros ts p r E.
    assert (Z : match read_path ts with Some (s, r0) => let '(o, a, c, r') := read_marks r0 in Some (PSym s o a c, r') | None => None end = Some (p, r) -> exists us, ts = us ++ r /\ item_toks us p).
    { clear E. destruct (read_path ts) as [[s r0]|] eqn:Ep; [|discriminate]. destruct (read_marks r0) as [[[o a] c] r'] eqn:Em. intros [= <- ->].
      apply read_path_sound in Ep as (us & -> & Hp). apply read_marks_sound in Em as (q & k & -> & Hq & Hk). exists (us ++ q ++ k). split; [now rewrite <- !app_assoc|]. now constructor. }
    destruct ts as [|[x s] ts]; [exact (Z E)|]. destruct x; try exact (Z E); cbn [read_item] in E.
    + destruct (read_alts n ts) as [[vs [|[[] u] r0]]|] eqn:Ea; try discriminate. destruct (read_marks r0) as [[[o a] c] r'] eqn:Em. injection E as <- ->.
      apply H4 in Ea as (us & -> & Hu). apply read_marks_sound in Em as (q & k & -> & Hq & Hk). exists ((OpenParen, s) :: us ++ (CloseParen, u) :: q ++ k).
      split; [|now constructor]. simpl. rewrite <- !app_assoc. simpl. now rewrite <- !app_assoc.
    + destruct (read_marks ts) as [[[o a] c] r'] eqn:Em. injection E as <- ->. apply read_marks_sound in Em as (q & k & -> & Hq & Hk).
      exists ((StrLit, s) :: q ++ k). split; [|now constructor]. simpl. now rewrite <- !app_assoc.
  - intros ts ps r E. cbn [read_pipe] in E. destruct (read_item n ts) as [[p r0]|] eqn:Ei; [|discriminate]. apply H1 in Ei as (us & -> & Hu). destruct (starts_item r0).
    + destruct (read_pipe n r0) as [[qs r1]|] eqn:Ep; [|discriminate]. injection E as <- ->. apply H2 in Ep as (us' & -> & Hu'). exists (us ++ us'). split; [now rewrite <- app_assoc|]. now apply pipe_cons.
    + injection E as <- ->. exists us. split; auto. now constructor.
  - intros ts v r E. cbn [read_alt] in E. destruct (read_pipe n ts) as [[ps r0]|] eqn:Ep; [|discriminate]. apply H2 in Ep as (us & -> & Hu).
    assert (Z : Some (ps, (0, 0), r0) = Some (v, r) -> exists vs, us ++ r0 = vs ++ r /\ alt_toks vs v) by (intros [= <- ->]; exists us; split; auto; now constructor).
    destruct r0 as [|[x s] r0]; [exact (Z E)|]. destruct x; try exact (Z E). injection E as <- ->. exists (us ++ [(CodeBlock, s)]). split; [now rewrite <- app_assoc|now constructor].
  - intros ts vs r E. cbn [read_alts] in E. destruct (read_alt n ts) as [[v r0]|] eqn:Ep; [|discriminate]. apply H3 in Ep as (us & -> & Hu).
    assert (Z : Some ([v], r0) = Some (vs, r) -> exists us', us ++ r0 = us' ++ r /\ alts_toks us' vs) by (intros [= <- ->]; exists us; split; auto; now constructor).
    destruct r0 as [|[x s] r0]; [exact (Z E)|]. destruct x; try exact (Z E). destruct (read_alts n r0) as [[ws r1]|] eqn:Ea; [|discriminate]. injection E as <- ->.
    apply H4 in Ea as (us' & -> & Hu'). exists (us ++ (Pipe, s) :: us'). split; [now rewrite <- app_assoc|]. now apply alts_cons.
Qed.
Lemma read_decl_sound n ts d r : read_decl n ts = Some (d, r) -> exists us, ts = us ++ r /\ decl_toks us d.
Proof.
  intros E.
  assert (Z : match read_path ts with
      | Some (name, (TwoDots, _) :: r) =>
          match read_path r with
          | Some (ty, (Assign, _) :: r') => match read_alts n r' with Some (alts, r'') => Some (DRule name ty alts, r'') | None => None end
          | _ => None
          end
      | _ => None
      end = Some (d, r) -> exists us, ts = us ++ r /\ decl_toks us d).
  { clear E. destruct (read_path ts) as [[name [|[[] c] r0]]|] eqn:E1; try discriminate. destruct (read_path r0) as [[ty [|[[] e] r1]]|] eqn:E2; try discriminate.
    destruct (read_alts n r1) as [[alts r2]|] eqn:E3; [|discriminate]. intros [= <- ->]. apply read_path_sound in E1 as (u1 & -> & H1). apply read_path_sound in E2 as (u2 & -> & H2).
    apply read_sound in E3 as (u3 & -> & H3). exists (u1 ++ (TwoDots, c) :: u2 ++ (Assign, e) :: u3). split; [|now constructor]. rewrite <- !app_assoc. simpl. now rewrite <- !app_assoc. }
  destruct ts as [|[x s] ts]; [exact (Z E)|]. destruct x; try exact (Z E).
  - clear Z. destruct ts as [|[x tk] ts]; [discriminate|]. destruct x; try discriminate; simpl in E; destruct (read_path ts) as [[al r']|] eqn:Ep; try discriminate; injection E as <- ->; apply read_path_sound in Ep as (us & -> & Hu).
    + exists ((AliasWord, s) :: (Ident, tk) :: us). split; [reflexivity|]. constructor; auto.
    + exists ((AliasWord, s) :: (StrLit, tk) :: us). split; [reflexivity|]. constructor; auto.
  - clear Z. simpl in E. destruct (read_path ts) as [[a r0]|] eqn:Ep; [|discriminate]. apply read_path_sound in Ep as (us & -> & Hu).
    assert (Z : Some (DUse a, r0) = Some (d, r) -> exists us', (UseWord, s) :: us ++ r0 = us' ++ r /\ decl_toks us' d) by (intros [= <- ->]; exists ((UseWord, s) :: us); split; auto; now constructor).
    destruct r0 as [|[x p] r0]; [exact (Z E)|]. destruct x; try exact (Z E). destruct r0 as [|[y g] r0]; [exact (Z E)|]. destruct y; try exact (Z E). injection E as <- ->.
    exists ((UseWord, s) :: us ++ [(PathAccess, p); (Glob, g)]). split; [|now constructor]. simpl. now rewrite <- app_assoc.
Qed.
Lemma file_cons us d s : decl_toks us d -> forall ts ds, file_toks ts ds -> file_toks (us ++ (Sc, s) :: ts) (d :: ds).
Proof.
  intros Hd ts ds H. induction H as [ts e s' He|ts ds ts' e s' H IH He].
  - change (us ++ (Sc, s) :: ts ++ [(Sc, s')]) with (us ++ [(Sc, s)] ++ ts ++ [(Sc, s')]). rewrite app_assoc. apply (file_more (us ++ [(Sc, s)]) [d]); [now constructor|exact He].
  - change ((Sc, s) :: ts ++ ts' ++ [(Sc, s')]) with (((Sc, s) :: ts) ++ ts' ++ [(Sc, s')]). rewrite app_assoc. apply (file_more _ (d :: ds)); assumption.
Qed.
Theorem read_file_sound n : forall ts ds, read_file n ts = Some ds -> file_toks ts ds.
Proof.
  induction n as [|n IH]; [discriminate|]. intros ts ds E. simpl in E. destruct (read_decl n ts) as [[d [|[[] s] [|x r]]]|] eqn:Ed; try discriminate.
  - injection E as <-. apply read_decl_sound in Ed as (us & -> & Hu). now constructor.
  - destruct (read_file n (x :: r)) as [ds'|] eqn:Ef; [|discriminate]. injection E as <-. apply read_decl_sound in Ed as (us & -> & Hu). apply file_cons; auto.
Qed.

(** ** whatever is there it finds *)
Definition head_is (P : sym -> bool) (ts : list lexeme) : bool := match ts with (x, _) :: _ => P x | [] => false end.
(** what may follow an item, a sequence of items, alternatives *)
Definition ends_item (ts : list lexeme) : bool := negb (head_is (fun x => match x with PathAccess | Optional | TwoDots => true | _ => false end) ts).
Definition ends_pipe (ts : list lexeme) : bool := ends_item ts && negb (starts_item ts).
Definition ends_alt (ts : list lexeme) : bool := ends_pipe ts && negb (head_is (fun x => match x with CodeBlock => true | _ => false end) ts).
Definition ends_alts (ts : list lexeme) : bool := ends_alt ts && negb (head_is (fun x => match x with Pipe => true | _ => false end) ts).
Definition ends_path (ts : list lexeme) : Prop := match ts with (PathAccess, _) :: (Ident, _) :: _ => False | _ => True end.

Lemma more_path_app ts s : path_toks ts s -> forall r, exists a us, ts = (Ident, a) :: us /\ more_path a (us ++ r) = more_path s r.
Proof.
  induction 1 as [s|ts a p b H IH]; intros r; [exists s, []; now split|].
  destruct (IH ((PathAccess, p) :: (Ident, b) :: r)) as (c & us & -> & E). exists c, (us ++ [(PathAccess, p); (Ident, b)]). split; [reflexivity|]. rewrite <- app_assoc. simpl. rewrite E. reflexivity.
Qed.
Lemma read_path_complete ts s r : path_toks ts s -> ends_path r -> read_path (ts ++ r) = Some (s, r).
Proof.
  intros H Hr. destruct (more_path_app ts s H r) as (a & us & -> & E). change (read_path (((Ident, a) :: us) ++ r)) with (Some (more_path a (us ++ r))). rewrite E. f_equal. destruct r as [|[x p] r]; [reflexivity|]. destruct x; try reflexivity.
  destruct r as [|[y q] r]; [reflexivity|]. destruct y; try reflexivity. destruct Hr.
Qed.
Lemma read_marks_complete q o k a c r : quest_toks q o -> aka_toks k a c -> ends_item r = true -> read_marks (q ++ k ++ r) = (o, a, c, r).
Proof.
  intros Hq Hk Hr. destruct r as [|[x s] r]; [destruct Hq, Hk; reflexivity|]. destruct Hq, Hk; try reflexivity; destruct x; try discriminate Hr; reflexivity.
Qed.
Lemma marks_end q o k a c r : quest_toks q o -> aka_toks k a c -> ends_item r = true -> ends_path (q ++ k ++ r).
Proof. intros [] [] Hr; simpl; auto. destruct r as [|[[] s] r]; try easy; simpl in *; auto; discriminate. Qed.

Lemma item_starts : (forall ts p, item_toks ts p -> forall r, starts_item (ts ++ r) = true).
Proof. intros ts p [us s q o k a c Hp _ _|s q o k a c _ _|l us r vs q o k a c _ _ _] r'; try reflexivity. destruct (more_path_app us s Hp []) as (b & vs & -> & _). reflexivity. Qed.
Lemma pipe_starts ts ps : pipe_toks ts ps -> forall r, starts_item (ts ++ r) = true.
Proof. intros H. induction H as [| | |ts q Hq|ts ps ts' q _ IH Hq| | | |] using pipe_ind' with (P := fun _ _ => True) (P1 := fun _ _ => True) (P2 := fun _ _ => True); auto; intros r; [now apply (item_starts _ _ Hq)|rewrite <- app_assoc; apply IH]. Qed.
Lemma starts_ends ts : starts_item ts = true -> ends_item ts = true.
Proof. destruct ts as [|[[] s] ts]; easy. Qed.
Lemma item_length ts p : item_toks ts p -> 0 < List.length ts.
Proof. intros [us s q o k a c Hp _ _|s q o k a c _ _|l us r vs q o k a c _ _ _]; simpl; try lia. destruct (more_path_app us s Hp []) as (b & vs & -> & _). simpl. lia. Qed.
Lemma pipe_uncons ts ps : pipe_toks ts ps -> (exists p, item_toks ts p /\ ps = [p]) \/ exists us p vs qs, item_toks us p /\ pipe_toks vs qs /\ ts = us ++ vs /\ ps = p :: qs.
Proof.
  intros H. induction H as [| | |ts q Hq|ts ps ts' q _ IH Hq| | | |] using pipe_ind' with (P := fun _ _ => True) (P1 := fun _ _ => True) (P2 := fun _ _ => True); auto; [left; eauto|].
  right. destruct IH as [(p & Hp & ->)|(us & p & vs & qs & Hp & Hv & -> & ->)].
  - exists ts, p, ts', [q]. repeat split; auto. now constructor.
  - exists us, p, (vs ++ ts'), (qs ++ [q]). repeat split; auto; [now constructor|now rewrite app_assoc].
Qed.
Lemma alts_uncons ts vs : alts_toks ts vs -> (exists v, alt_toks ts v /\ vs = [v]) \/ exists us v p ws qs, alt_toks us v /\ alts_toks ws qs /\ ts = us ++ (Pipe, p) :: ws /\ vs = v :: qs.
Proof.
  intros H. induction H as [| | | | | | |ts w Hw|ts vs q ts' w H IH Hw] using alts_ind' with (P := fun _ _ => True) (P0 := fun _ _ => True) (P1 := fun _ _ => True); auto; [left; eauto|].
  right. destruct IH as [(v & Hv & ->)|(us & v & p & ws & qs & Hv & Hs & -> & ->)].
  - exists ts, v, q, ts', [w]. repeat split; auto. now constructor.
  - exists us, v, p, (ws ++ (Pipe, q) :: ts'), (qs ++ [w]). repeat split; auto; [now constructor|now rewrite <- app_assoc].
Qed.
Lemma alts_starts ts vs : alts_toks ts vs -> forall r, starts_item (ts ++ r) = true.
Proof.
  assert (A : forall ts v, alt_toks ts v -> forall r, starts_item (ts ++ r) = true) by (intros us v [vs' ps H|vs' ps c H] r; rewrite <- ?app_assoc; now apply (pipe_starts _ _ H)).
  intros H r. destruct (alts_uncons _ _ H) as [(v & Hv & _)|(us & v & p & ws & qs & Hv & _ & -> & _)]; [now apply (A _ _ Hv)|]. rewrite <- app_assoc. now apply (A _ _ Hv).
Qed.

Lemma read_complete m :
  (forall ts p r n, List.length ts <= m -> item_toks ts p -> 4 * List.length ts < n -> ends_item r = true -> read_item n (ts ++ r) = Some (p, r)) /\
  (forall ts ps r n, List.length ts <= m -> pipe_toks ts ps -> 4 * List.length ts + 1 < n -> ends_pipe r = true -> read_pipe n (ts ++ r) = Some (ps, r)) /\
  (forall ts v r n, List.length ts <= m -> alt_toks ts v -> 4 * List.length ts + 2 < n -> ends_alt r = true -> read_alt n (ts ++ r) = Some (v, r)) /\
  (forall ts vs r n, List.length ts <= m -> alts_toks ts vs -> 4 * List.length ts + 3 < n -> ends_alts r = true -> read_alts n (ts ++ r) = Some (vs, r)).
Proof.
  induction m as [|m (H1 & H2 & H3 & H4)].
  - assert (P0 : forall ts ps, pipe_toks ts ps -> List.length ts <= 0 -> False) by (intros [|? ?] ps H Hl; [discriminate (pipe_starts _ _ H [])|simpl in Hl; lia]).
    repeat split; intros ts x r n Hl Hx; exfalso.
    + apply item_length in Hx. lia.
    + eauto.
    + destruct Hx as [ts ps H|ts ps c H]; [|rewrite app_length in Hl; simpl in Hl; lia]. eauto.
    + pose proof (alts_starts _ _ Hx []) as H. destruct ts; [discriminate|simpl in Hl; lia].
  - assert (I1 : forall ts p r n, List.length ts <= S m -> item_toks ts p -> 4 * List.length ts < n -> ends_item r = true -> read_item n (ts ++ r) = Some (p, r)).
    { intros ts p r n Hl Hp Hn Hr. destruct n as [|n]; [lia|]. destruct Hp as [us s q o k a c Hp Hq Hk|s q o k a c Hq Hk|l us e vs q o k a c Ha Hq Hk].
      - rewrite <- !app_assoc. pose proof (read_path_complete us s (q ++ k ++ r) Hp (marks_end _ _ _ _ _ _ Hq Hk Hr)) as E.
        destruct (more_path_app us s Hp []) as (b & vs & -> & _). cbn [app] in *. cbn [read_item]. rewrite E, (read_marks_complete _ _ _ _ _ _ Hq Hk Hr). reflexivity.
      - cbn [app]. rewrite <- !app_assoc. cbn [read_item]. rewrite (read_marks_complete _ _ _ _ _ _ Hq Hk Hr). reflexivity.
      - cbn [app]. rewrite <- !app_assoc. cbn [app]. rewrite <- !app_assoc. cbn [read_item]. simpl in Hl, Hn. rewrite app_length in Hl, Hn. simpl in Hl, Hn.
        rewrite (H4 us vs) by (auto; lia). rewrite (read_marks_complete _ _ _ _ _ _ Hq Hk Hr). reflexivity. }
    assert (I2 : forall ts ps r n, List.length ts <= S m -> pipe_toks ts ps -> 4 * List.length ts + 1 < n -> ends_pipe r = true -> read_pipe n (ts ++ r) = Some (ps, r)).
    { intros ts ps r n Hl Hp Hn Hr. destruct n as [|n]; [lia|]. apply andb_prop in Hr as [Hr1 Hr2]. apply negb_true_iff in Hr2. cbn [read_pipe].
      destruct (pipe_uncons _ _ Hp) as [(p & Hi & ->)|(us & p & vs & qs & Hi & Hv & -> & ->)].
      - rewrite (I1 ts p) by (auto; lia). now rewrite Hr2.
      - rewrite app_length in Hl, Hn. pose proof (item_length _ _ Hi). rewrite <- app_assoc. rewrite (I1 us p); [|lia|auto|lia|apply starts_ends; now apply (pipe_starts _ _ Hv)].
        rewrite (pipe_starts _ _ Hv). rewrite (H2 vs qs); auto; try lia. unfold ends_pipe. now rewrite Hr1, Hr2. }
    assert (I3 : forall ts v r n, List.length ts <= S m -> alt_toks ts v -> 4 * List.length ts + 2 < n -> ends_alt r = true -> read_alt n (ts ++ r) = Some (v, r)).
    { intros ts v r n Hl Hv Hn Hr. destruct n as [|n]; [lia|]. apply andb_prop in Hr as [Hr1 Hr2]. cbn [read_alt]. destruct Hv as [ts ps H|ts ps c H].
      - rewrite (I2 ts ps) by (auto; lia). destruct r as [|[[] s] r]; try reflexivity. discriminate Hr2.
      - rewrite app_length in Hl, Hn. simpl in Hl, Hn. rewrite <- app_assoc. rewrite (I2 ts ps) by (auto; lia). reflexivity. }
    repeat split; auto. intros ts vs r n Hl Hv Hn Hr. destruct n as [|n]; [lia|]. apply andb_prop in Hr as [Hr1 Hr2]. cbn [read_alts].
    destruct (alts_uncons _ _ Hv) as [(v & Ha & ->)|(us & v & p & ws & qs & Ha & Hs & -> & ->)].
    + rewrite (I3 ts v) by (auto; lia). destruct r as [|[[] s] r]; try reflexivity. discriminate Hr2.
    + rewrite app_length in Hl, Hn. simpl in Hl, Hn. rewrite <- app_assoc. cbn [app]. rewrite (I3 us v) by (auto; lia). rewrite (H4 ws qs); auto; try lia. unfold ends_alts. now rewrite Hr1, Hr2.
Qed.
Lemma read_decl_complete ts d s r n : decl_toks ts d -> 4 * List.length ts + 3 < n -> read_decl n (ts ++ (Sc, s) :: r) = Some (d, (Sc, s) :: r).
Proof.
  intros [nm name c t ty e rt alts Hn Ht Ha|u us x H|u us x p g H|w x tk us al Hx H] Hl.
  - rewrite <- app_assoc. cbn [app]. rewrite <- app_assoc. cbn [app]. rewrite app_length in Hl. simpl in Hl. rewrite app_length in Hl. simpl in Hl.
    pose proof (read_path_complete nm name ((TwoDots, c) :: t ++ (Assign, e) :: rt ++ (Sc, s) :: r) Hn Logic.I) as E1.
    pose proof (read_path_complete t ty ((Assign, e) :: rt ++ (Sc, s) :: r) Ht Logic.I) as E2.
    pose proof (proj2 (proj2 (proj2 (read_complete (List.length rt)))) rt alts ((Sc, s) :: r) n (le_n _) Ha ltac:(lia) eq_refl) as E3.
    destruct (more_path_app nm name Hn []) as (b & vs & -> & _). cbn [app read_decl] in *. match goal with |- context [read_path ?X] => replace (read_path X) with (Some (name, (TwoDots, c) :: t ++ (Assign, e) :: rt ++ (Sc, s) :: r)) by (symmetry; exact E1) end. rewrite E2, E3. reflexivity.
  - cbn [app read_decl]. rewrite (read_path_complete us x) by easy. reflexivity.
  - cbn [app]. rewrite <- app_assoc. cbn [app read_decl]. rewrite (read_path_complete us x) by easy. reflexivity.
  - cbn [app]. destruct Hx as [-> | ->]; cbn [read_decl]; rewrite (read_path_complete us al) by easy; reflexivity.
Qed.
Lemma file_uncons ts ds : file_toks ts ds -> (exists us d s, decl_toks us d /\ ts = us ++ [(Sc, s)] /\ ds = [d]) \/ exists us d s ws es, decl_toks us d /\ file_toks ws es /\ ts = us ++ (Sc, s) :: ws /\ ds = d :: es.
Proof.
  induction 1 as [ts d s Hd|ts ds ts' e s' H IH He]; [left; eauto 8|]. right. destruct IH as [(us & d & s & Hd & -> & ->)|(us & d & s & ws & es & Hd & Hw & -> & ->)].
  - exists us, d, s, (ts' ++ [(Sc, s')]), [e]. repeat split; auto; [now constructor|now rewrite <- app_assoc].
  - exists us, d, s, (ws ++ ts' ++ [(Sc, s')]), (es ++ [e]). repeat split; auto; [now constructor|now rewrite <- app_assoc].
Qed.
Lemma file_nonempty ts ds : file_toks ts ds -> ts <> [].
Proof. intros [us d s _|us es us' d s _ _] E; [|rewrite app_assoc in E]; symmetry in E; now apply app_cons_not_nil in E. Qed.
Theorem read_file_complete m : forall ts ds n, List.length ts <= m -> file_toks ts ds -> 4 * List.length ts + 4 < n -> read_file n ts = Some ds.
Proof.
  induction m as [|m IH]; intros ts ds n Hl Hf Hn; [apply file_nonempty in Hf; destruct ts; [easy|simpl in Hl; lia]|]. destruct n as [|n]; [lia|]. cbn [read_file].
  destruct (file_uncons _ _ Hf) as [(us & d & s & Hd & -> & ->)|(us & d & s & ws & es & Hd & Hw & -> & ->)]; rewrite app_length in Hl, Hn; simpl in Hl, Hn.
  - rewrite (read_decl_complete us d s []) by (auto; lia). reflexivity.
  - rewrite (read_decl_complete us d s ws) by (auto; lia). rewrite (IH ws es) by (auto; lia). apply file_nonempty in Hw. destruct ws; [easy|reflexivity].
Qed.

Theorem file_unique ts ds ds' : file_toks ts ds -> file_toks ts ds' -> ds = ds'.
Proof.
  intros H H'. pose proof (read_file_complete _ ts ds (4 * List.length ts + 5) (le_n _) H ltac:(lia)). pose proof (read_file_complete _ ts ds' (4 * List.length ts + 5) (le_n _) H' ltac:(lia)). congruence.
Qed.
