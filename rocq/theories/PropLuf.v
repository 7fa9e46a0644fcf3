(** PropLuf.v - the LU factorizer in rounded arithmetic (C84). *)
From Coq Require Import List Arith ZArith QArith Qcanon Reals.
From Verif Require Import Base LUSpec LUModel ConvSpec StepSpec FpSpec LufModel LufSpec LufFacts2 LufFacts4.
Import ListNotations.
Local Open Scope R_scope.

(** C84: the program analysed here is, for exact rationals, the one of C06 - C09. *)
Theorem C84_same_program : (forall e, setMatrixN (N:=QcNum) e = (st <- setMatrix e ;; Ret (asN st))) /\
  (forall st, factorizeN (asN st) = (st' <- factorize st ;; Ret (asN st'))) /\
  (forall st b, solveN (asN st) b = (r <- solve st b ;; Ret (asN (fst r), snd r))).
Proof. exact same_lu. Qed.
Print Assumptions C84_same_program.
(** In any arithmetic whatever: every matrix with an acceptable stencil is decomposed without access outside the arrays - also when a pivot is zero - and the factors and solutions are
    those of elimination without pivoting, the products subtracted one after the other in the order of the columns.  Decomposing again changes nothing; components of the right-hand side
    beyond the size of the matrix stay as they are. *)
Theorem C84_any_arithmetic : forall (N : Num) (e : entriesN N) n, distinct_keys e -> acceptableN e n ->
  exists st st' L U, setMatrixN e = Ret st /\ factorizeN st = Ret st' /\ factorizeN st' = Ret st' /\ factorsN st' e n L U /\ doolittle e n L U /\
    forall b, (n <= length b)%nat -> exists x y, solveN st b = Ret (st', x) /\ solveN st' b = Ret (st', x) /\ length x = length b /\
      (forall j, (n <= j)%nat -> nth j x (n0 N) = nth j b (n0 N)) /\ substituted e n L U (fun i => nth i b (n0 N)) y (fun i => nth i x (n0 N)).
Proof. exact @any_lu. Qed.
Print Assumptions C84_any_arithmetic.
(** Arithmetic with relative error u, n u < 1, no pivot zero: the computed factors multiply to the matrix up to gam n u times the product of their absolute values, element by element,
    and, where the stencil covers the fill-in, the residual of the computed solution is at most (3 gam + gam^2) |L| |U| |x|. *)
Theorem C84_backward : forall rnd u n (e : entriesN (FNum rnd)), relative rnd u -> 0 <= u -> INR n * u < 1 -> distinct_keys e -> acceptableN e n ->
  exists st st' L U, setMatrixN e = Ret st /\ factorizeN st = Ret st' /\ factorsN st' e n L U /\
    ((forall c, (c < n)%nat -> U c c <> 0) ->
      (forall r c, (r < n)%nat -> (c < n)%nat -> Rabs (rsum n (fun k => lowR L r k * uppR U k c) - mvalN e r c) <= gam n u * rsum n (fun k => Rabs (lowR L r k) * Rabs (uppR U k c))) /\
      (coversN e n -> forall b, length b = n -> exists x, solveN st b = Ret (st', x) /\ solveN st' b = Ret (st', x) /\ length x = n /\
        forall r, (r < n)%nat -> Rabs (rsum n (fun c => mvalN e r c * cmpR x c) - cmpR b r) <=
          (3 * gam n u + gam n u * gam n u) * rsum n (fun k => Rabs (lowR L r k) * rsum n (fun c => Rabs (uppR U k c) * Rabs (cmpR x c))))).
Proof. exact lu_backward. Qed.
Print Assumptions C84_backward.
(** Rounding to the nearest double (exponents unlimited) is such an arithmetic, u = 2^-53. *)
Theorem C84_binary53 : relative binary53 (/ 2 ^ 53).
Proof. exact binary53_relative. Qed.
Print Assumptions C84_binary53.
