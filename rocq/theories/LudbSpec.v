(** LudbSpec.v - matrices of doubles as matrices of real numbers; effect of underflow (C92). *)
From Coq Require Import List Reals.
From Flocq Require Import Core IEEE754.BinarySingleNaN.
From Verif Require Import Base IeeeSpec.
Local Open Scope R_scope.
Definition realM (M : nat -> nat -> double) (r c : nat) : R := B2R (M r c).
(** Error caused by underflow in a sum of up to n products and a division by the pivot p. *)
Definition tiny (n : nat) (p : R) : R := INR n * / 2 ^ 1072 + / 2 ^ 1073 * Rabs p.
