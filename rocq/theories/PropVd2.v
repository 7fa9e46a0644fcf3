(** PropVd2.v - C91: the product of a sparse matrix and a vector of doubles. *)
From Coq Require Import List Arith ZArith Reals.
From Flocq Require Import Core IEEE754.BinarySingleNaN.
From Verif Require Import Base SMap SpModel SpSpec VecModel ConvSpec LufSpec IeeeSpec VdSpec VdFacts2.
Import ListNotations.
Local Open Scope R_scope.

(** C91.  Matrix times vector, for a matrix or view of doubles (its elements are what reading it gives) and a vector of finite doubles.  An element of the result is finite, and its error is at most
    gam (n+1) times the sum of the absolute values of the products, plus n times twice the smallest positive double, if the elements in that row of the matrix are finite and that sum is at most 2^1000. *)
Theorem C91_matrix_times_vector : forall (m : mems DNum) (e : sexpr DNum) (v : list double), mems_ok m -> SpSpec.in_range m e -> length v = snd (ssize m e) -> all_finite v ->
  INR (S (length v)) * / 2 ^ 53 <= / 4 ->
  exists w : list double, smulv m e v = Ret w /\ length w = fst (ssize m e) /\
    forall r, (r < fst (ssize m e))%nat -> (forall c, (c < length v)%nat -> is_finite (sget m e (r, c) : double) = true) ->
      rsum (length v) (fun c => Rabs (B2R (sget m e (r, c) : double) * val v c)) <= 2 ^ 1000 ->
      is_finite (nth r w dzero) = true /\
      Rabs (val w r - rsum (length v) (fun c => B2R (sget m e (r, c) : double) * val v c)) <=
        gam (S (length v)) (/ 2 ^ 53) * rsum (length v) (fun c => Rabs (B2R (sget m e (r, c) : double) * val v c)) + INR (length v) * / 2 ^ 1073.
Proof. exact mulv_double. Qed.
Print Assumptions C91_matrix_times_vector.
(** C91.  An element presented by iterating over the matrix that is NaN, or that meets NaN in the vector, makes its element of the result NaN. *)
Theorem C91_matrix_nan : forall (m : mems DNum) (e : sexpr DNum) (v : list double), mems_ok m -> SpSpec.in_range m e -> length v = snd (ssize m e) ->
  exists w : list double, smulv m e v = Ret w /\
    forall r c x, In ((r, c), x) (siter m e) -> x = (B754_nan : double) \/ nth c v dzero = B754_nan -> nth r w dzero = B754_nan.
Proof. exact mulv_nan. Qed.
Print Assumptions C91_matrix_nan.
