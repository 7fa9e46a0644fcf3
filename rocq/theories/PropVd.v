(** PropVd.v - C91: scalar products and norms of vectors of doubles. *)
From Coq Require Import List Arith ZArith Reals.
From Flocq Require Import Core IEEE754.BinarySingleNaN.
From Verif Require Import Base VecModel VecSpec ConvSpec LufSpec IeeeSpec VdSpec VdFacts.
Import ListNotations.
Local Open Scope R_scope.

(** C91.  The scalar product of two vectors or views of finite doubles whose products add up, in absolute value, to at most 2^1000 is finite, and its error is at most gam (n+1) times
    that sum, plus n times the smallest positive double twice over. *)
Theorem C91_dot : forall (m : mem DNum) (a b : vexpr DNum) (la lb : list double), well_formed m a -> well_formed m b -> (vsize m a <= vsize m b)%nat -> elements m a la -> elements m b lb ->
  all_finite la -> all_finite lb -> rsum (length la) (fun i => Rabs (val la i * val lb i)) <= 2 ^ 1000 -> INR (S (length la)) * / 2 ^ 53 <= / 4 ->
  exists r : double, vdot m a b = Ret r /\ is_finite r = true /\
    Rabs (B2R r - rsum (length la) (fun i => val la i * val lb i)) <= gam (S (length la)) (/ 2 ^ 53) * rsum (length la) (fun i => Rabs (val la i * val lb i)) + INR (length la) * / 2 ^ 1073.
Proof. exact dot_double. Qed.
Print Assumptions C91_dot.
(** C91.  The maximum norm of a vector of finite doubles is exact and finite whatever the elements; the one norm and the square of the euclidean norm are finite and accurate if they are at most 2^1000. *)
Theorem C91_norms : forall (m : mem DNum) (e : vexpr DNum) (l : list double), well_formed m e -> elements m e l -> all_finite l ->
  (exists r : double, vinfnorm m e = Ret r /\ is_finite r = true /\ (forall x, In x l -> Rabs (B2R x) <= B2R r) /\ ((l = [] /\ B2R r = 0) \/ exists x, In x l /\ B2R r = Rabs (B2R x))) /\
  (INR (S (length l)) * / 2 ^ 53 <= / 4 -> rsum (length l) (fun i => Rabs (val l i)) <= 2 ^ 1000 ->
     exists r : double, vonenorm m e = Ret r /\ is_finite r = true /\ Rabs (B2R r - rsum (length l) (fun i => Rabs (val l i))) <= gam (S (length l)) (/ 2 ^ 53) * rsum (length l) (fun i => Rabs (val l i)) + INR (length l) * / 2 ^ 1073) /\
  (INR (S (length l)) * / 2 ^ 53 <= / 4 -> rsum (length l) (fun i => val l i * val l i) <= 2 ^ 1000 ->
     exists r : double, veuclsq m e = Ret r /\ is_finite r = true /\ Rabs (B2R r - rsum (length l) (fun i => val l i * val l i)) <= gam (S (length l)) (/ 2 ^ 53) * rsum (length l) (fun i => val l i * val l i) + INR (length l) * / 2 ^ 1073).
Proof. exact norms_double. Qed.
Print Assumptions C91_norms.
(** C91.  NaN in an element makes the scalar product, the one norm and the euclidean norm NaN, whatever the other elements, infinities included. *)
Theorem C91_nan : forall m : mem DNum,
  (forall a b la lb i, well_formed m a -> well_formed m b -> (vsize m a <= vsize m b)%nat -> elements m a la -> elements m b lb -> (i < length la)%nat ->
    nth i la dzero = B754_nan \/ nth i lb dzero = B754_nan -> vdot m a b = Ret (B754_nan : double)) /\
  (forall e l, well_formed m e -> elements m e l -> In (B754_nan : double) l -> vonenorm m e = Ret (B754_nan : double) /\ veuclsq m e = Ret (B754_nan : double)).
Proof. exact nan_double. Qed.
Print Assumptions C91_nan.
