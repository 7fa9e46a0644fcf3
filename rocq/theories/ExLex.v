(** ExLex.v - concrete cases for PropLex.v and refutations. *)
From Coq Require Import List String Ascii.
Require Import Verif.LexModel Verif.LexSpec Verif.LexFacts.
Local Open Scope string_scope.

Example int_yes : IsIntegerNumber "-120" = true. Proof. reflexivity. Qed.
Example int_no : IsIntegerNumber "" = false /\ IsIntegerNumber "+" = false /\ IsIntegerNumber "1-" = false. Proof. repeat split. Qed.
Example num_yes : IsNumber "+.5e-10" = true /\ IsNumber "5." = true /\ IsNumber "1.25E3" = true. Proof. repeat split. Qed.
Example num_no : IsNumber "." = false /\ IsNumber "1e" = false /\ IsNumber "1.2.3" = false /\ IsNumber " 1" = false. Proof. repeat split. Qed.
Example hex_ex : IsHexIntegerNumber "0aF9" = true /\ IsHexIntegerNumber "0x1" = false. Proof. repeat split. Qed.
Example id_ex : IsIdentifier "x_1" = true /\ IsIdentifier "1x" = false. Proof. repeat split. Qed.

(** ... but not only C identifiers. *)
Theorem C17_identifier_sound_refuted : ~ (forall s, IsIdentifier s = true -> c_identifier s).
Proof.
  intro H. destruct (H "[^" eq_refl) as (c & t & E & A & _). injection E as <- <-.
  apply memb_In in A. vm_compute in A. discriminate.
Qed.
