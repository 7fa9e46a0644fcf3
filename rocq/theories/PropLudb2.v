(** PropLudb2.v - C92: accuracy of the LU factorizer in IEEE doubles, underflow included. *)
From Coq Require Import List Arith ZArith Reals.
From Flocq Require Import Core IEEE754.BinarySingleNaN.
From Verif Require Import Base LUSpec LUModel ConvSpec LufModel LufSpec IeeeSpec VdSpec LudbSpec LudbFacts3 LudbFacts4.
Import ListNotations.
Local Open Scope R_scope.

(** C92.  Whatever the matrix and the right-hand side: if the components of the solution and the pivots have come out finite, then nothing has overflown on the way, the factors multiply to the matrix, and the
    solution satisfies the equations, up to the error bounds of C84 (u = 2^-53) and terms of the size of the smallest doubles for underflow. *)
Theorem C92_accuracy : forall (e : entriesN DNum) n, distinct_keys e -> acceptableN e n -> coversN e n -> INR n * / 2 ^ 53 <= / 4 ->
  exists (st st' : luN DNum) (L U : nat -> nat -> double), setMatrixN e = Ret st /\ factorizeN st = Ret st' /\ factorsN (N:=DNum) st' e n L U /\
    forall b : list double, length b = n -> exists x : list double, solveN st b = Ret (st', x) /\ solveN st' b = Ret (st', x) /\ length x = n /\
      ((forall r, (r < n)%nat -> is_finite (nth r x dzero) = true /\ is_finite (U r r) = true) ->
        (forall r c, (r < n)%nat -> (c < n)%nat -> Rabs (rsum n (fun k => lowR (realM L) r k * uppR (realM U) k c) - B2R (mvalN e r c : double)) <=
           gam n (/ 2 ^ 53) * rsum n (fun k => Rabs (lowR (realM L) r k) * Rabs (uppR (realM U) k c)) + tiny n (B2R (U c c))) /\
        (forall r, (r < n)%nat -> Rabs (rsum n (fun c => B2R (mvalN e r c : double) * val x c) - val b r) <=
           (3 * gam n (/ 2 ^ 53) + gam n (/ 2 ^ 53) * gam n (/ 2 ^ 53)) * rsum n (fun k => Rabs (lowR (realM L) r k) * rsum n (fun c => Rabs (uppR (realM U) k c) * Rabs (val x c))) +
           (rsum n (fun k => tiny n (B2R (U k k)) * Rabs (val x k)) + 2 * rsum n (fun k => Rabs (lowR (realM L) r k) * tiny n (B2R (U k k))) + INR n * / 2 ^ 1072))).
Proof. exact lu_accuracy. Qed.
Print Assumptions C92_accuracy.
(** C92.  The condition on the pivots can be replaced by one the caller can see: if all components of the solution are finite and none is zero, the pivots are finite and not zero, and every equation is satisfied up to the same bound. *)
Theorem C92_nonzero_solution : forall (e : entriesN DNum) n, distinct_keys e -> acceptableN e n -> coversN e n -> INR n * / 2 ^ 53 <= / 4 ->
  exists (st st' : luN DNum) (L U : nat -> nat -> double), setMatrixN e = Ret st /\ factorizeN st = Ret st' /\ factorsN (N:=DNum) st' e n L U /\
    forall b : list double, length b = n -> exists x : list double, solveN st b = Ret (st', x) /\ length x = n /\
      ((forall r, (r < n)%nat -> is_finite (nth r x dzero) = true /\ val x r <> 0) ->
        (forall r, (r < n)%nat -> is_finite (U r r) = true /\ B2R (U r r) <> 0) /\
        (forall r, (r < n)%nat -> Rabs (rsum n (fun c => B2R (mvalN e r c : double) * val x c) - val b r) <=
           (3 * gam n (/ 2 ^ 53) + gam n (/ 2 ^ 53) * gam n (/ 2 ^ 53)) * rsum n (fun k => Rabs (lowR (realM L) r k) * rsum n (fun c => Rabs (uppR (realM U) k c) * Rabs (val x c))) +
           (rsum n (fun k => tiny n (B2R (U k k)) * Rabs (val x k)) + 2 * rsum n (fun k => Rabs (lowR (realM L) r k) * tiny n (B2R (U k k))) + INR n * / 2 ^ 1072))).
Proof. exact nonzero_solution. Qed.
Print Assumptions C92_nonzero_solution.
