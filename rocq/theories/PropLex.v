(** PropLex.v - property C17 of the lexical classifiers.  Vocabulary: LexSpec.v. *)
From Coq Require Import String.
Require Import Verif.LexModel Verif.LexSpec Verif.LexFacts.

Theorem C17_integer_grammar : forall s, IsIntegerNumber s = true <-> integer_text s.
Proof. exact IsIntegerNumber_ok. Qed.
Print Assumptions C17_integer_grammar.

Theorem C17_number_grammar : forall s, IsNumber s = true <-> number_text s.
Proof. exact IsNumber_ok. Qed.
Print Assumptions C17_number_grammar.

Theorem C17_hex_grammar : forall s, IsHexIntegerNumber s = true <-> hex_text s.
Proof. exact IsHex_ok. Qed.
Print Assumptions C17_hex_grammar.

Theorem C17_identifier_grammar : forall s, IsIdentifier s = true <-> loose_identifier s.
Proof. exact IsIdentifier_ok. Qed.
Print Assumptions C17_identifier_grammar.

(** Every C identifier is accepted ... *)
Theorem C17_identifier_complete : forall s, c_identifier s -> IsIdentifier s = true.
Proof. intros s H. apply IsIdentifier_ok. apply c_identifier_loose. exact H. Qed.
Print Assumptions C17_identifier_complete.
