(** PropGrf.v - the Gragg solver in rounded arithmetic (C88).  Vocabulary: FpSpec.v (rounds, FNum, bound), ConvSpec.v (near, lipschitz_x, solves), ImcSpec.v (slope_changes, curvature_changes),
    IfpSpec.v (computes_near, slopes_within), GrfSpec.v (gragg_noise), ExtModel.v. *)
From Coq Require Import List Arith Bool ZArith Reals.
From Verif Require Import Base VecModel VOps NewtModel RkModel RkSpec StepSpec ExtModel ConvSpec FpSpec ImcSpec IfpSpec GrfSpec GrfFacts4.
Import ListNotations.
Local Open Scope R_scope.

(** C88.  Every operation rounds, and the right-hand side is computed up to phi.  From any state of the solver, after the size h is set, [count] steps succeed; the time is within the sum of the
    rounding errors; and the state is off the solution by at most E = e^(2LT) times the initial error plus a multiple of h^2 plus (1 + 2T/h) times the noise of one step, if the solution
    stays E below the size B for which the noise is computed.  The smoothed state has the like bound. *)
Theorem C88_error : forall (rnd : R -> R) (u eta : R) (W : Type) (f : W -> R -> list R -> Outcome (list R)) (n : nat) (g : R -> list R -> list R) (S B G Lt phi : R),
  rounds rnd u eta -> 0 <= u -> 0 <= eta -> u + eta <= 1 ->
  forall s : gst (FNum rnd) W, computes_near n S B phi (f (g_w s)) g -> slopes_within n S B G Lt g -> 0 <= B -> 0 <= G -> 0 <= Lt -> 0 <= phi ->
  forall (X : R -> list R) (C : R -> nat -> R) (L K M T d h : R) (count : nat), 0 <= L -> lipschitz_x n L g -> 0 <= K -> 0 <= M ->
  let t0 := g_t s : R in let w := u + eta in let A := 1 + Rabs t0 + T in
  solves n g X t0 (t0 + T) -> slope_changes n g X t0 (t0 + T) K -> curvature_changes n g X C t0 (t0 + T) M ->
  0 < h -> 2 * A <= S -> INR count * h <= T -> 3 * INR count * w <= 1 -> length (g_u s) = n -> 0 <= d -> near n (g_u s) (X t0) d ->
  let eps := gragg_noise B G Lt A T h w phi in
  let E := exp (2 * L * T) * ((1 + h * L) * d + (K / 4 + T * M / 2) * (h * h) + (1 + 2 * T / h) * eps) in
  (forall t, t0 <= t <= t0 + T -> bound n (X t) (B - E)) ->
  exists s', g_steps (N:=FNum rnd) no_events f 2 count (g_size (N:=FNum rnd) h s) = Some s' /\ Rabs (g_t s' - (t0 + INR count * h)) <= 2 * INR count * w * A /\
    (forall half, exists z : list R, g_state (N:=FNum rnd) false half s' = Ret z /\ near n z (X (t0 + INR count * h)) E) /\
    exists z : list R, g_state (N:=FNum rnd) true (/ 2) s' = Ret z /\ near n z (X (t0 + INR count * h)) ((1 + h * L) * E + K / 8 * (h * h) + eps).
Proof. exact gragg_rounded. Qed.
Print Assumptions C88_error.
