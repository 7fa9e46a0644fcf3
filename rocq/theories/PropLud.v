(** PropLud.v - the LU factorizer in rounded arithmetic for matrices dominated by their diagonal (C84). *)
From Coq Require Import List Arith ZArith QArith Qcanon Reals.
From Verif Require Import Base LUSpec LUModel ConvSpec StepSpec FpSpec LufModel LufSpec LudSpec LufFacts6.
Import ListNotations.
Local Open Scope R_scope.

(** C84.  If the rows are dominated by the diagonal with a margin above what rounding can take away, no computed pivot is zero, the rows of the computed U are again dominated by their
    diagonal elements, and every right-hand side is solved with a residual of at most kap n u times the size of the row and of the solution. *)
Theorem C84_dominant : forall rnd u n (e : entriesN (FNum rnd)), relative rnd u -> 0 <= u -> INR n * u < 1 -> distinct_keys e -> acceptableN e n -> dominant_by (loss n u) n (mvalN e) ->
  exists st st' L U, setMatrixN e = Ret st /\ factorizeN st = Ret st' /\ factorsN st' e n L U /\ (forall c, (c < n)%nat -> U c c <> 0) /\
    (forall r, (r < n)%nat -> rsum n (fun c => if (r <? c)%nat then Rabs (U r c) else 0) <= Rabs (U r r)) /\
    (coversN e n -> forall b, length b = n -> exists x, solveN st b = Ret (st', x) /\ solveN st' b = Ret (st', x) /\ length x = n /\
      forall X, (forall c, (c < n)%nat -> Rabs (cmpR x c) <= X) -> forall r, (r < n)%nat ->
        Rabs (rsum n (fun c => mvalN e r c * cmpR x c) - cmpR b r) <= kap n u * rsum n (fun c => Rabs (mvalN e r c)) * X).
Proof. exact dominant_lu. Qed.
Print Assumptions C84_dominant.
(** C84.  Then the system has one exact solution z, and the computed one is as near to it as kap n u / mu times its own size, mu being the margin. *)
Theorem C84_error : forall rnd u mu n (e : entriesN (FNum rnd)) b, relative rnd u -> 0 <= u -> INR n * u < 1 -> distinct_keys e -> acceptableN e n -> coversN e n ->
  0 < mu -> loss n u <= mu -> dominant_by mu n (mvalN e) -> length b = n ->
  exists st st' x z, setMatrixN e = Ret st /\ solveN st b = Ret (st', x) /\ length x = n /\
    (forall r, (r < n)%nat -> rsum n (fun c => mvalN e r c * z c) = cmpR b r) /\
    (forall y, (forall r, (r < n)%nat -> rsum n (fun c => mvalN e r c * y c) = cmpR b r) -> forall i, (i < n)%nat -> y i = z i) /\
    forall X, (forall c, (c < n)%nat -> Rabs (cmpR x c) <= X) -> forall i, (i < n)%nat -> Rabs (cmpR x i - z i) <= kap n u / mu * X.
Proof. exact dominant_error. Qed.
Print Assumptions C84_error.
