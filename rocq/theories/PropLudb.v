(** PropLudb.v - C92: the LU factorizer in IEEE doubles. *)
From Coq Require Import List Arith ZArith Reals.
From Flocq Require Import Core IEEE754.BinarySingleNaN.
From Verif Require Import Base LUSpec LUModel LufModel LufSpec IeeeSpec LudbFacts.
Import ListNotations.
Local Open Scope nat_scope.

(** C92.  For every matrix of doubles, infinities and NaN included, with an acceptable stencil and every right-hand side, the factorizer returns a solution (L and U: its factors, as read from its arrays).
    - A NaN stored in a row of the matrix, or in that component of the right-hand side, makes that component of the solution NaN.
    - A pivot that is zero (of either sign) or NaN makes its component of the solution infinite or NaN.
    - If all components of the solution are finite and the stencil covers the fill-in, then all elements of the factors off the diagonal of U are finite, and the pivot of every component that is not zero is finite and not zero. *)
Theorem C92_visible : forall (e : entriesN DNum) n, distinct_keys e -> acceptableN e n ->
  exists (st st' : luN DNum) (L U : nat -> nat -> double), setMatrixN e = Ret st /\ factorizeN st = Ret st' /\ factorsN (N:=DNum) st' e n L U /\
    forall b : list double, n <= length b -> exists x : list double, solveN st b = Ret (st', x) /\ solveN st' b = Ret (st', x) /\ length x = length b /\
      (forall r, r < n -> nth r b dzero = B754_nan \/ (exists c, In ((r, c), (B754_nan : double)) e) -> nth r x dzero = B754_nan) /\
      (forall r, r < n -> (exists s, U r r = B754_zero s) \/ U r r = B754_nan -> is_finite (nth r x dzero) = false) /\
      (coversN e n -> (forall r, r < n -> is_finite (nth r x dzero) = true) ->
         (forall r c, c < r < n -> sky e r c = true -> is_finite (L r c) = true) /\ (forall r c, r < c < n -> sky e r c = true -> is_finite (U r c) = true) /\
         (forall r, r < n -> B2R (nth r x dzero) <> 0%R -> is_finite (U r r) = true /\ B2R (U r r) <> 0%R)).
Proof. exact lu_double. Qed.
Print Assumptions C92_visible.
