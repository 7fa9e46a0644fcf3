(** PropGra.v - C80: the Gragg solver converges with order two.  Vocabulary: ConvSpec.v (near, lipschitz_x, solves), ImcSpec.v (toR, computes_rhs, slope_changes, curvature_changes), ExtModel.v. *)
From Coq Require Import List Arith Bool ZArith QArith Qcanon Reals.
From Verif Require Import Base VecModel VOps RkModel RkSpec StepModel StepSpec ExtModel ExtSpec ImpModel ConvSpec ImcSpec GraFacts2.
Import ListNotations.
Local Open Scope R_scope.
(** From any state of the solver, after the size h is set, [count] steps succeed and the error at the end of them is at most e^(2LT) times the initial error plus a multiple of h^2,
    where L is the Lipschitz constant of the right-hand side, K a bound of the second derivative of the solution and M of the third, and T the time covered;
    both for the plain state and for the smoothed one. *)
Theorem C80_error : forall (W : Type) (f : W -> Qc -> list Qc -> Outcome (list Qc)) n g X A L K M T d (s : gst QcNum W) h count,
  computes_rhs n (f (g_w s)) g -> 0 <= L -> lipschitz_x n L g -> 0 <= K -> 0 <= M ->
  solves n g X (q2r (g_t s)) (q2r (g_t s) + T) -> slope_changes n g X (q2r (g_t s)) (q2r (g_t s) + T) K -> curvature_changes n g X A (q2r (g_t s)) (q2r (g_t s) + T) M ->
  0 < q2r h -> INR count * q2r h <= T -> length (g_u s) = n -> 0 <= d -> near n (toR (g_u s)) (X (q2r (g_t s))) d ->
  exists s', g_steps (N:=QcNum) no_events f (qn 2) count (g_size (N:=QcNum) h s) = Some s' /\ q2r (g_t s') = q2r (g_t s) + INR count * q2r h /\
    (forall half, exists z, g_state (N:=QcNum) false half s' = Ret z /\
       near n (toR z) (X (q2r (g_t s'))) (exp (2 * L * T) * ((1 + q2r h * L) * d + (K / 4 + T * M / 2) * (q2r h * q2r h)))) /\
    exists z, g_state (N:=QcNum) true (1 / qn 2)%Qc s' = Ret z /\
       near n (toR z) (X (q2r (g_t s'))) ((1 + q2r h * L) * (exp (2 * L * T) * ((1 + q2r h * L) * d + (K / 4 + T * M / 2) * (q2r h * q2r h))) + K / 8 * (q2r h * q2r h)).
Proof. exact @gragg_error. Qed.
Print Assumptions C80_error.
