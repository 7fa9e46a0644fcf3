(** PropVd3.v - C91: the product of a vector and a sparse matrix of doubles. *)
From Coq Require Import List Arith ZArith Reals.
From Flocq Require Import Core IEEE754.BinarySingleNaN.
From Verif Require Import Base SMap SpModel SpSpec VecModel ConvSpec LufSpec IeeeSpec VdSpec VdFacts3.
Import ListNotations.
Local Open Scope R_scope.

(** C91.  Vector times matrix, for a square matrix or view of doubles and a vector of finite doubles: as for matrix times vector, with the columns in place of the rows. *)
Theorem C91_vector_times_matrix : forall (m : mems DNum) (e : sexpr DNum) (v : list double), mems_ok m -> SpSpec.in_range m e -> length v = fst (ssize m e) -> fst (ssize m e) = snd (ssize m e) -> all_finite v ->
  INR (S (length v)) * / 2 ^ 53 <= / 4 ->
  exists w : list double, svmul m v e = Ret w /\ length w = snd (ssize m e) /\
    forall c, (c < snd (ssize m e))%nat -> (forall r, (r < length v)%nat -> is_finite (sget m e (r, c) : double) = true) ->
      rsum (length v) (fun r => Rabs (B2R (sget m e (r, c) : double) * val v r)) <= 2 ^ 1000 ->
      is_finite (nth c w dzero) = true /\
      Rabs (val w c - rsum (length v) (fun r => B2R (sget m e (r, c) : double) * val v r)) <=
        gam (S (length v)) (/ 2 ^ 53) * rsum (length v) (fun r => Rabs (B2R (sget m e (r, c) : double) * val v r)) + INR (length v) * / 2 ^ 1073.
Proof. exact vmul_double. Qed.
Print Assumptions C91_vector_times_matrix.
(** C91.  An element presented by iterating over the matrix that is NaN, or that meets NaN in the vector, makes its element of the result NaN. *)
Theorem C91_vector_times_matrix_nan : forall (m : mems DNum) (e : sexpr DNum) (v : list double), mems_ok m -> SpSpec.in_range m e -> length v = fst (ssize m e) -> fst (ssize m e) = snd (ssize m e) ->
  exists w : list double, svmul m v e = Ret w /\
    forall c r x, In ((r, c), x) (siter m e) -> x = (B754_nan : double) \/ nth r v dzero = B754_nan -> nth c w dzero = B754_nan.
Proof. exact vmul_nan. Qed.
Print Assumptions C91_vector_times_matrix_nan.
