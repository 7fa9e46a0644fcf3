(** LudSpec.v - matrices dominated by their diagonal, over the reals. *)
From Coq Require Import List Arith Reals.
From Verif Require Import ConvSpec LufSpec.
Local Open Scope R_scope.

(** In every row the diagonal element exceeds the sum of the others by more than the part d of the sum of all, in absolute value. *)
Definition dominant_by (d : R) (n : nat) (A : nat -> nat -> R) : Prop :=
  forall r, (r < n)%nat -> rsum n (fun c => if Nat.eqb c r then 0 else Rabs (A r c)) + d * rsum n (fun c => Rabs (A r c)) < Rabs (A r r).
(** What rounding of relative size u can take away from the dominance of a row during the elimination. *)
Definition loss (n : nat) (u : R) : R := (1 + 8 * u) ^ n - 1.
(** Residual of the computed solution, relative to the size of the row and of the solution. *)
Definition kap (n : nat) (u : R) : R := (3 * gam n u + gam n u * gam n u) * (INR n * (2 * (1 + u) * (1 + 8 * u) ^ n)).
