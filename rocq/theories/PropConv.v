(** PropConv.v - stability and convergence of the explicit Runge-Kutta solvers, fixed step and adaptive, over the real numbers (C73, C74). *)
From Coq Require Import List Arith ZArith QArith Qcanon Reals.
From Verif Require Import Base VecModel VOps RkModel RkSpec StepModel StepSpec ConvSpec ConvFacts5 RkFacts6 RkFacts7.
Import ListNotations.
Local Open Scope R_scope.

(** C73: two runs of a fixed step solver, from different initial states, on a Lipschitz right-hand side: after any number of steps the
    difference has grown by at most the factor 1 + h * growth per step. *)
Theorem C73_two_runs : forall (W : Type) f n L co stages h, wf_table co stages 1 -> shortcut_ok co stages -> sized n f -> 0 <= L -> lipschitz_x n L f -> 0 <= h ->
  forall t0 x0 y0 (s0 r0 : rkst RNum W) count d, length x0 = n -> length y0 = n -> 0 <= d -> near n x0 y0 d ->
  exists s' posts r' posts', rk_steps (N:=RNum) no_events (rhs_of f) co n h count (rk_set (N:=RNum) no_events t0 x0 s0) = Ret (s', posts) /\
    rk_steps (N:=RNum) no_events (rhs_of f) co n h count (rk_set (N:=RNum) no_events t0 y0 r0) = Ret (r', posts') /\
    near n (rk_x s') (rk_x r') ((1 + h * growth co stages 0 L h) ^ count * d).
Proof. exact two_runs. Qed.
Print Assumptions C73_two_runs.
(** For every sequence z of states: if one step of the solver from z_i misses z_(i+1) by at most eps, for every i, then the run stays close to the
    sequence; the single errors add up with the same growth factor and nothing else. *)
Theorem C73_errors_accumulate : forall (W : Type) f n L co stages h, wf_table co stages 1 -> shortcut_ok co stages -> sized n f -> 0 <= L -> lipschitz_x n L f -> 0 <= h ->
  forall t0 x0 (s0 : rkst RNum W) count (z : nat -> list R) d eps, length x0 = n -> 0 <= d -> 0 <= eps -> near n x0 (z 0%nat) d ->
  (forall i, (i < count)%nat -> length (z i) = n /\ exists y, one_step f co n h (t0 + INR i * h) (z i) = Ret y /\ near n y (z (S i)) eps) ->
  exists s' posts, rk_steps (N:=RNum) no_events (rhs_of f) co n h count (rk_set (N:=RNum) no_events t0 x0 s0) = Ret (s', posts) /\
    near n (rk_x s') (z count) ((1 + h * growth co stages 0 L h) ^ count * d + eps * rsum count (fun k => (1 + h * growth co stages 0 L h) ^ k)).
Proof. exact errors_accumulate. Qed.
Print Assumptions C73_errors_accumulate.

(** C74: the computed states converge to the exact solution: for every right-hand side that is Lipschitz in time and state, every solution X on
    [t0, t0 + T] and every table whose weights sum up to 1, there is one constant C such that for every step size and every number of steps within
    the interval the solver delivers the solution up to C (d + h), d being the error of the initial state. *)
Theorem C74_convergence : forall f n L X t0 T co stages, wf_table co stages 1 -> shortcut_ok co stages -> consistent co stages 0 0 ->
  sized n f -> 0 <= L -> lipschitz n L f -> 0 <= T -> solves n f X t0 (t0 + T) ->
  exists C, 0 <= C /\ forall (W : Type) (s0 : rkst RNum W) h count x0 d, 0 < h -> INR count * h <= T -> length x0 = n -> 0 <= d -> near n x0 (X t0) d ->
  exists s' posts, rk_steps (N:=RNum) no_events (rhs_of f) co n h count (rk_set (N:=RNum) no_events t0 x0 s0) = Ret (s', posts) /\
    rk_t s' = t0 + INR count * h /\ near n (rk_x s') (X (rk_t s')) (C * (d + h)).
Proof. exact convergence. Qed.
Print Assumptions C74_convergence.
(** The same with the constants spelled out, and for weights that sum up to 1 only up to delta (rounded coefficients): M bounds the slope along the solution. *)
Theorem C74_error_bound : forall f n L M X t0 T co stages delta, wf_table co stages 1 -> shortcut_ok co stages -> consistent co stages 0 delta ->
  sized n f -> 0 <= L -> lipschitz n L f -> 0 <= T -> 0 <= M -> solves n f X t0 (t0 + T) ->
  (forall t j, t0 <= t <= t0 + T -> (j < n)%nat -> Rabs (cmpR (f t (X t)) j) <= M) ->
  exists K, 0 <= K /\ forall (W : Type) (s0 : rkst RNum W) h count x0 d, 0 < h -> INR count * h <= T -> length x0 = n -> 0 <= d -> near n x0 (X t0) d ->
  exists s' posts, rk_steps (N:=RNum) no_events (rhs_of f) co n h count (rk_set (N:=RNum) no_events t0 x0 s0) = Ret (s', posts) /\
    rk_t s' = t0 + INR count * h /\ near n (rk_x s') (X (rk_t s')) (exp (growth co stages 0 L T * T) * (d + T * (K * h + M * delta))).
Proof. exact fixed_error. Qed.
Print Assumptions C74_error_bound.
(** The adaptive solvers, whatever the step size controller, the error norm and the rejected attempts: if all accepted steps have sizes in (0, H], the
    error after them is bounded in the same way, with H for the step size. *)
Theorem C74_adaptive : forall f n L M X t0 T (c : erkcfg RNum) stages delta, e_n c = n -> (e_mode c < 2)%nat ->
  wf_table (e_co c) stages 2 -> shortcut_ok (e_co c) stages -> consistent (e_co c) stages (e_mode c) delta ->
  sized n f -> 0 <= L -> lipschitz n L f -> 0 <= T -> 0 <= M -> solves n f X t0 (t0 + T) ->
  (forall t j, t0 <= t <= t0 + T -> (j < n)%nat -> Rabs (cmpR (f t (X t)) j) <= M) ->
  exists K, 0 <= K /\ forall (W : Type) (s0 s' : rkst RNum W) l H x0 d, length x0 = n -> 0 <= d -> near n x0 (X t0) d ->
    adaptive_run (rhs_of f) c (erk_set (N:=RNum) no_events t0 x0 s0) l s' -> Forall (fun h => 0 < h <= H) l -> 0 <= H -> total l <= T ->
    rk_t s' = t0 + total l /\ near n (rk_x s') (X (rk_t s')) (exp (growth (e_co c) stages (e_mode c) L T * T) * (d + T * (K * H + M * delta))).
Proof. exact adaptive_error. Qed.
Print Assumptions C74_adaptive.
(** The tables of the library satisfy the conditions; the 8(7) table up to 1e-17. *)
Theorem C74_tables :
  (wf_table (tabR tab_euler) 1 1 /\ shortcut_ok (tabR tab_euler) 1 /\ consistent (tabR tab_euler) 1 0 0) /\
  (wf_table (tabR tab_rk4) 4 1 /\ shortcut_ok (tabR tab_rk4) 4 /\ consistent (tabR tab_rk4) 4 0 0) /\
  (wf_table (tabR tab_dopri45) 7 2 /\ shortcut_ok (tabR tab_dopri45) 7 /\ forall ix, (ix < 2)%nat -> consistent (tabR tab_dopri45) 7 ix 0) /\
  (wf_table (tabR tab_dopri56) 8 2 /\ shortcut_ok (tabR tab_dopri56) 8 /\ forall ix, (ix < 2)%nat -> consistent (tabR tab_dopri56) 8 ix 0) /\
  (wf_table (tabR tab_dopri78) 13 2 /\ shortcut_ok (tabR tab_dopri78) 13 /\ forall ix, (ix < 2)%nat -> consistent (tabR tab_dopri78) 13 ix (q2r (qc 1 100000000000000000))).
Proof. exact real_tables. Qed.
Print Assumptions C74_tables.
