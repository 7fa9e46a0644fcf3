(** PropVd4.v - C91: norms and products of sparse matrices of doubles. *)
From Coq Require Import List Arith ZArith Reals.
From Flocq Require Import Core IEEE754.BinarySingleNaN.
From Verif Require Import Base SMap SpModel SpSpec VecModel ConvSpec LufSpec IeeeSpec VdSpec VdFacts4 VdFacts5.
Import ListNotations.
Local Open Scope R_scope.

(** C91.  Norms of a matrix or view over the elements l presented by iterating over it, if they are finite: the maximum norm is exact and finite whatever they are; the one norm and the square of the euclidean norm
    are finite and accurate if they are at most 2^1000. *)
Theorem C91_matrix_norms : forall (m : mems DNum) (e : sexpr DNum), let l := map snd (siter m e) : list double in all_finite l ->
  (is_finite (sinfnorm m e : double) = true /\ (forall x, In x l -> Rabs (B2R x) <= B2R (sinfnorm m e : double)) /\ ((l = [] /\ B2R (sinfnorm m e : double) = 0) \/ exists x, In x l /\ B2R (sinfnorm m e : double) = Rabs (B2R x))) /\
  (INR (S (length l)) * / 2 ^ 53 <= / 4 -> rsum (length l) (fun i => Rabs (val l i)) <= 2 ^ 1000 ->
     is_finite (sonenorm m e : double) = true /\ Rabs (B2R (sonenorm m e : double) - rsum (length l) (fun i => Rabs (val l i))) <= gam (S (length l)) (/ 2 ^ 53) * rsum (length l) (fun i => Rabs (val l i)) + INR (length l) * / 2 ^ 1073) /\
  (INR (S (length l)) * / 2 ^ 53 <= / 4 -> rsum (length l) (fun i => val l i * val l i) <= 2 ^ 1000 ->
     is_finite (seuclsq m e : double) = true /\ Rabs (B2R (seuclsq m e : double) - rsum (length l) (fun i => val l i * val l i)) <= gam (S (length l)) (/ 2 ^ 53) * rsum (length l) (fun i => val l i * val l i) + INR (length l) * / 2 ^ 1073).
Proof. exact matrix_norms_double. Qed.
Print Assumptions C91_matrix_norms.
(** C91.  NaN in a presented element makes the one norm and the euclidean norm NaN. *)
Theorem C91_matrix_norms_nan : forall (m : mems DNum) (e : sexpr DNum) p, In (p, (B754_nan : double)) (siter m e) -> (sonenorm m e : double) = B754_nan /\ (seuclsq m e : double) = B754_nan.
Proof. exact matrix_norms_nan. Qed.
Print Assumptions C91_matrix_norms_nan.
(** C91.  Matrix times matrix.  An element of the product is finite, and its error is at most gam (n+1) times the sum of the absolute values of the products (n columns of the first matrix), plus n times twice the smallest
    positive double, if the elements it is made of are finite and that sum is at most 2^1000, whatever the other elements.  A presented element of the first matrix that meets a stored element of the second one makes its element of the product NaN
    if one of them is NaN. *)
Theorem C91_product : forall (m : mems DNum) (a b : sexpr DNum), mems_ok m -> row_capable m a = true -> SpSpec.in_range m a -> INR (S (snd (ssize m a))) * / 2 ^ 53 <= / 4 ->
  exists res, sprod m a b = Ret res /\ fast res = false /\ ssz res = (fst (ssize m a), snd (ssize m b)) /\ row_major (sdat res) /\
    (forall r c, (r < fst (ssize m a))%nat -> (c < snd (ssize m b))%nat ->
       (forall k, (k < snd (ssize m a))%nat -> is_finite (sget m a (r, k) : double) = true /\ is_finite (sget m b (k, c) : double) = true) ->
       rsum (snd (ssize m a)) (fun k => Rabs (B2R (sget m a (r, k) : double) * B2R (sget m b (k, c) : double))) <= 2 ^ 1000 ->
       is_finite (get res (r, c) : double) = true /\
       Rabs (B2R (get res (r, c) : double) - rsum (snd (ssize m a)) (fun k => B2R (sget m a (r, k) : double) * B2R (sget m b (k, c) : double))) <=
         gam (S (snd (ssize m a))) (/ 2 ^ 53) * rsum (snd (ssize m a)) (fun k => Rabs (B2R (sget m a (r, k) : double) * B2R (sget m b (k, c) : double))) + INR (snd (ssize m a)) * / 2 ^ 1073) /\
    (forall r c k x, (c < snd (ssize m b))%nat -> In ((r, k), x) (siter m a) -> snd (scheckedGet m b (k, c)) = true -> x = (B754_nan : double) \/ (sget m b (k, c) : double) = B754_nan -> (get res (r, c) : double) = B754_nan).
Proof. exact product_double. Qed.
Print Assumptions C91_product.
