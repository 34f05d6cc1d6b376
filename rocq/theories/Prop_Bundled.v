(** C38 *)
From Coq Require Import List Bool Arith String.
From Verif Require Import BTree Model Strings Grammars Wop Spec Interface Bundled Examples.
Import ListNotations.
Local Open Scope string_scope.
Local Open Scope list_scope.

(** The parsers of the grammars in grammars_tests.rs and of wop's own grammar decide, for inputs of any length, whether
    the input is a sentence ([decides_language]); ucalgary_uni_oth_lr1 only under Clr. *)
Theorem C38_bundled_exact :
  (forall k, decides_language "S" "$" dragon_book_rules k) /\
  (forall k, decides_language "Start" "$" serokell_rules k) /\
  decides_language "S" "$" ucalgary_uni_oth_lr1_rules CLR /\
  (forall k, decides_language "S" "$" wikipedia_rules k) /\
  (forall k, decides_language "S'" "$" puncs_rules k) /\
  (forall k, decides_language "S" "$" scanner_rules k) /\
  (forall k, decides_language EntryPoint Eof wop_rules k).
Proof. exact (conj dragon_book_exact (conj serokell_exact (conj ucalgary_exact (conj wikipedia_exact (conj puncs_exact (conj scanner_exact wop_exact)))))). Qed.
Print Assumptions C38_bundled_exact.

(** the phrase "decides the language" in full, for one of them *)
Example C38_example : forall dbg, exists g t, wop_grammar dbg = Val g /\ makes SLR dbg g t /\
  (forall input, validates t input true <-> sentence (grammar_map wop_rules) EntryPoint (map tk_ty input)) /\
  exists input, validates t input true /\ validates t (tl input) false.
Proof. exact wop_example. Qed.
