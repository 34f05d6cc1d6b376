(** C138: blanks, names and signs in wop's sources *)
From Coq Require Import List Bool Arith Lia Ascii String.
From Verif Require Import BTree Model Wop WopSpec WopLex WopLexSpec WopWordSpec WopWord.
Import ListNotations.
Local Open Scope string_scope.
Local Open Scope list_scope.
Local Open Scope nat_scope.

(** Blanks in front of a text add no token and no error, they only move the tokens along. *)
Theorem C138_blank : forall lg w s, every blank w -> tokenize lg (w ++ s) = later (String.length w) (tokenize lg s).
Proof. exact blanks_skipped. Qed.
Print Assumptions C138_blank.
Example C138_blank_example : every blank (String (ascii_of_nat 13) (String (ascii_of_nat 10) (String (ascii_of_nat 9) " "))) /\
  forall e, tokenize {| wide := []; extent := e |} "x =" = [(Ident, (0, 1)); (Assign, (2, 3))] /\
  later 4 [(Ident, (0, 1)); (Assign, (2, 3))] = [(Ident, (4, 5)); (Assign, (6, 7))].
Proof. split; [cbn; unfold blank; cbn; tauto|]. intros e. split; reflexivity. Qed.

(** A name up to the next ASCII character that is no part of names is one token: the keyword if it is one, an identifier if not. *)
Theorem C138_word : forall lg w s, outside lg -> name w -> next (fun c => ~ name_part c /\ nat_of_ascii c < 128) s -> token_at lg (Some (kind w)) w s.
Proof. exact name_token. Qed.
Print Assumptions C138_word.
(** Identifiers in ASCII are names and no keywords. *)
Theorem C138_ident : forall lg w s, outside lg -> token_at lg (Some Ident) w s -> every (fun c => nat_of_ascii c < 128) w -> name w /\ w <> "alias" /\ w <> "use".
Proof. exact ident_text. Qed.
Print Assumptions C138_ident.
Example C138_word_example : outside {| wide := [String (ascii_of_nat 195) (String (ascii_of_nat 169) "")]; extent := fun _ => 1 |} /\
  name "use" /\ name "user_Z9" /\ kind "use" = UseWord /\ kind "user_Z9" = Ident /\ next (fun c => ~ name_part c /\ nat_of_ascii c < 128) "::b".
Proof.
  split; [repeat constructor; cbn; lia|]. split; [exists "u"%char, "se"; split; [reflexivity|]; unfold name_part, name_start; cbn; lia|].
  split; [exists "u"%char, "ser_Z9"; split; [reflexivity|]; unfold name_part, name_start; cbn; lia|]. split; [reflexivity|]. split; [reflexivity|]. unfold name_part, name_start. cbn. lia.
Qed.

(** The signs are tokens whatever follows, but [:] not before another [:]. *)
Theorem C138_sign : forall lg k w s, In (k, w) signs -> (w = ":" -> next (fun c => c <> ":"%char) s) -> token_at lg (Some k) w s.
Proof. exact sign_token. Qed.
Print Assumptions C138_sign.
Example C138_sign_example : In (TwoDots, ":") signs /\ next (fun c => c <> ":"%char) "=:" /\ In (PathAccess, "::") signs.
Proof. cbn. split; [tauto|]. split; [discriminate|tauto]. Qed.

(** With any other ASCII character nothing starts. *)
Theorem C138_none : forall lg c s, nat_of_ascii c < 128 -> ~ blank c -> ~ name_start c -> ~ In c openers -> stuck lg (String c s).
Proof. exact other_stuck. Qed.
Print Assumptions C138_none.
Example C138_none_example : nat_of_ascii "7" < 128 /\ ~ blank "7" /\ ~ name_start "7" /\ ~ In "7"%char openers.
Proof. split; [cbn; lia|]. split; [unfold blank; cbn; lia|]. split; [unfold name_start; cbn; lia|]. intros H. cbn in H. repeat (destruct H as [H|H]; [discriminate H|]). contradiction. Qed.
