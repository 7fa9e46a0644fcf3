(** VdSpec.v - vectors of doubles (C91). *)
From Coq Require Import List Reals.
From Flocq Require Import Core IEEE754.BinarySingleNaN.
From Verif Require Import IeeeSpec.
Local Open Scope R_scope.
(** Value of an element of a vector of doubles; no element is infinite or NaN. *)
Definition val (l : list double) (i : nat) : R := B2R (nth i l dzero).
Definition all_finite (l : list double) : Prop := forall x, In x l -> is_finite x = true.
