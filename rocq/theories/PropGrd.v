(** PropGrd.v - the Gragg solver in numbers of type double (C90).  Vocabulary: IeeeSpec.v (double, DNum, holds, rhs_holds, gragg_size, gragg_time), FpSpec.v, ConvSpec.v, ImcSpec.v, IfpSpec.v, GrfSpec.v,
    ExtModel.v (the solver, for any numbers). *)
From Coq Require Import List Arith Bool ZArith Reals.
From Verif Require Import Base VecModel VOps NewtModel RkModel RkSpec StepSpec ExtModel ConvSpec FpSpec ImcSpec IfpSpec GrfSpec IeeeSpec IeeeFacts6 IeeeFacts7.
Import ListNotations.
Local Open Scope R_scope.

(** C90.  If the states of the run in rounded arithmetic are at most V, and the slopes, states and times that follow from this are at most 2^1000, the run in doubles succeeds, and its times and
    states, smoothed or not, are finite and hold the numbers of the rounded run. *)
Theorem C90_same_run : forall (W W' : Type) n gD g hD twoD h V G S, holds hD h -> holds twoD 2 -> 0 <= V -> 0 <= G -> 0 <= S ->
  gragg_size V G h <= 2 ^ 1000 -> gragg_time h S <= 2 ^ 1000 -> rhs_holds n (gragg_time h S) (gragg_size V G h) G gD g -> sizedD n gD -> sized n g ->
  forall (sD : gst DNum W) (s : gst (FNum binary64) W') count, holds (g_t sD) (g_t s) -> holdsV n (g_u sD) (g_u s) ->
  (forall m s', (m <= count)%nat -> g_steps (N:=FNum binary64) no_events (rhs_ofF binary64 g) 2 m (g_size (N:=FNum binary64) h s) = Some s' ->
     Rabs (g_t s' : R) <= S /\ bound n (g_u s') V /\ (g_run s' = true -> bound n (g_v s') V)) ->
  exists sD' s', g_steps (N:=DNum) no_events (rhs_ofD gD) twoD count (g_size (N:=DNum) hD sD) = Some sD' /\
    g_steps (N:=FNum binary64) no_events (rhs_ofF binary64 g) 2 count (g_size (N:=FNum binary64) h s) = Some s' /\ holds (g_t sD') (g_t s') /\ holdsV n (g_u sD') (g_u s') /\
    forall smooth halfD, holds halfD (/ 2) -> exists zD z, g_state (N:=DNum) smooth halfD sD' = Ret zD /\ g_state (N:=FNum binary64) smooth (/ 2) s' = Ret z /\ holdsV n zD z.
Proof. exact @gragg_same_run. Qed.
Print Assumptions C90_same_run.

(** The error bound of C88, with nothing assumed on the run: [g] are the slopes the program computes, off the slopes [gx] of the equation by at most phi. *)
Theorem C90_error : forall (W : Type) n gD g gx S B G Lt phi X C L K M T d hD h count twoD (sD : gst DNum W) t0 x0 H,
  computes_near n S B phi (fun t x => Ret (g t x)) gx -> slopes_within n S B G Lt gx -> 0 <= B -> 0 <= G -> 0 <= Lt -> 0 <= phi -> sizedD n gD -> sized n g ->
  0 <= L -> lipschitz_x n L gx -> 0 <= K -> 0 <= M -> let w := / 2 ^ 53 + / 2 ^ 1075 in let A := 1 + Rabs t0 + T in
  solves n gx X t0 (t0 + T) -> slope_changes n gx X t0 (t0 + T) K -> curvature_changes n gx X C t0 (t0 + T) M ->
  0 < h -> holds hD h -> holds twoD 2 -> 2 * A <= S -> INR count * h <= T -> 3 * INR count * w <= 1 -> holds (g_t sD) t0 -> holdsV n (g_u sD) x0 -> 0 <= d -> near n x0 (X t0) d ->
  let eps := gragg_noise B G Lt A T h w phi in
  let E := exp (2 * L * T) * ((1 + h * L) * d + (K / 4 + T * M / 2) * (h * h) + (1 + 2 * T / h) * eps) in
  let E2 := (1 + h * L) * E + K / 8 * (h * h) + eps in
  (forall t, t0 <= t <= t0 + T -> bound n (X t) (B - E)) ->
  let V := 12 * B + 8 * E2 + 16 in 0 <= H -> gragg_size V H h <= 2 ^ 1000 -> gragg_time h S <= 2 ^ 1000 -> rhs_holds n (gragg_time h S) (gragg_size V H h) H gD g ->
  exists s' t x, g_steps (N:=DNum) no_events (rhs_ofD gD) twoD count (g_size (N:=DNum) hD sD) = Some s' /\ holds (g_t s') t /\ Rabs (t - (t0 + INR count * h)) <= 2 * INR count * w * A /\
    holdsV n (g_u s') x /\ near n x (X (t0 + INR count * h)) E /\
    forall halfD, holds halfD (/ 2) -> exists zD z, g_state (N:=DNum) true halfD s' = Ret zD /\ holdsV n zD z /\ near n z (X (t0 + INR count * h)) E2.
Proof. exact gragg_double. Qed.
Print Assumptions C90_error.
