(** PropHigh.v - the order of convergence of the explicit Runge-Kutta solvers over the real numbers (C75). *)
From Coq Require Import List Arith ZArith QArith Qcanon Reals.
From Verif Require Import Base VecModel VOps RkModel RkSpec StepModel StepSpec ConvSpec HighSpec HighFacts5 HighFacts6 HighFacts7 FpSpec LinFacts.
Import ListNotations.
Local Open Scope R_scope.

(** C75: a table that satisfies the order conditions up to order p gives a solver of order p, for every Lipschitz right-hand side that is p times
    differentiable along the solution, linear or not, in any dimension: there is one constant C such that for every step size and every number of
    steps within the interval the solver delivers the solution up to C (d + h^p), d being the error of the initial state. *)
Theorem C75_order : forall f n L X t0 T p co stages, (0 < p)%nat -> wf_table co stages 1 -> shortcut_ok co stages -> order_conditions co stages 0 p -> row_sums co stages ->
  sized n f -> 0 <= L -> lipschitz n L f -> 0 <= T -> solves n f X t0 (t0 + T) -> smooth_along n p f X t0 (t0 + T) ->
  exists C, 0 <= C /\ forall (W : Type) (s0 : rkst RNum W) h count x0 d, 0 < h -> INR count * h <= T -> length x0 = n -> 0 <= d -> near n x0 (X t0) d ->
  exists s' posts, rk_steps (N:=RNum) no_events (rhs_of f) (tabR co) n h count (rk_set (N:=RNum) no_events t0 x0 s0) = Ret (s', posts) /\
    rk_t s' = t0 + INR count * h /\ near n (rk_x s') (X (rk_t s')) (C * (d + h ^ p)).
Proof. exact order_exactly. Qed.
Print Assumptions C75_order.
(** Rounded tables: one constant for all tables with entries up to A; conditions that hold up to delta cost at most C delta. *)
Theorem C75_rounded : forall f n L X t0 T p stages (A : Qc), (0 < p)%nat -> sized n f -> 0 <= L -> lipschitz n L f -> 0 <= T -> solves n f X t0 (t0 + T) ->
  smooth_along n p f X t0 (t0 + T) -> (0 <= A)%Qc ->
  exists C, 0 <= C /\ forall co delta, wf_table co stages 1 -> shortcut_ok co stages -> entries_upto co A -> order_upto co stages 0 p delta -> (delta <= 1)%Qc ->
  forall (W : Type) (s0 : rkst RNum W) h count x0 d, 0 < h -> INR count * h <= T -> length x0 = n -> 0 <= d -> near n x0 (X t0) d ->
  exists s' posts, rk_steps (N:=RNum) no_events (rhs_of f) (tabR co) n h count (rk_set (N:=RNum) no_events t0 x0 s0) = Ret (s', posts) /\
    rk_t s' = t0 + INR count * h /\ near n (rk_x s') (X (rk_t s')) (C * (d + h ^ p + q2r delta)).
Proof. exact order_fixed. Qed.
Print Assumptions C75_rounded.
(** The adaptive solvers, in both modes, whatever the step size controller, the error norm and the rejected attempts: if all accepted steps have sizes
    in (0, H], the error after them is at most C (d + H^p + delta). *)
Theorem C75_adaptive : forall f n L X t0 T p stages ix (A : Qc), (0 < p)%nat -> (ix < 2)%nat -> sized n f -> 0 <= L -> lipschitz n L f -> 0 <= T -> solves n f X t0 (t0 + T) ->
  smooth_along n p f X t0 (t0 + T) -> (0 <= A)%Qc ->
  exists C, 0 <= C /\ forall co delta, wf_table co stages 2 -> shortcut_ok co stages -> entries_upto co A -> order_upto co stages ix p delta -> (delta <= 1)%Qc ->
  forall (c : erkcfg RNum) (W : Type) (s0 s' : rkst RNum W) l H x0 d, e_n c = n -> e_co c = tabR co -> e_mode c = ix -> length x0 = n -> 0 <= d -> near n x0 (X t0) d ->
    adaptive_run (rhs_of f) c (erk_set (N:=RNum) no_events t0 x0 s0) l s' -> Forall (fun h => 0 < h <= H) l -> 0 <= H -> total l <= T ->
    rk_t s' = t0 + total l /\ near n (rk_x s') (X (rk_t s')) (C * (d + H ^ p + q2r delta)).
Proof. exact order_adaptive. Qed.
Print Assumptions C75_adaptive.
(** Partial derivatives up to order p that are bounded near the solution are enough for the differentiability asked for above. *)
Theorem C75_smooth : forall n p f E X t0 t1 rho B, derivatives n p f E -> 0 < rho -> 0 <= B -> (forall t, t0 <= t <= t1 -> length (X t) = n) ->
  bounded_near n p E X t0 t1 rho B -> smooth_along n p f X t0 t1.
Proof. exact smooth_from. Qed.
Print Assumptions C75_smooth.
(** The tables of the library: order 1, 4, 5(4), 6(5), and 8(7) up to 1e-16. *)
Theorem C75_tables :
  order_upto tab_euler 1 0 1 0%Qc /\ order_upto tab_rk4 4 0 4 0%Qc /\
  order_upto tab_dopri45 7 0 5 0%Qc /\ order_upto tab_dopri45 7 1 4 0%Qc /\
  order_upto tab_dopri56 8 0 6 0%Qc /\ order_upto tab_dopri56 8 1 5 0%Qc /\
  order_upto tab_dopri78 13 0 8 (qc 1 10000000000000000) /\ order_upto tab_dopri78 13 1 7 (qc 1 10000000000000000) /\
  entries_upto tab_euler (qc 1000 1) /\ entries_upto tab_rk4 (qc 1000 1) /\ entries_upto tab_dopri45 (qc 1000 1) /\ entries_upto tab_dopri56 (qc 1000 1) /\ entries_upto tab_dopri78 (qc 1000 1).
Proof. exact order_tables. Qed.
Print Assumptions C75_tables.
(** A linear system x' = M x is smooth along each of its solutions, to any order. *)
Theorem C75_linear : forall n p M a X t0 t1, (0 < p)%nat -> 0 <= a -> (forall i j, (i < n)%nat -> (j < n)%nat -> Rabs (M i j) <= a) -> t0 <= t1 -> solves n (linearR n M) X t0 t1 ->
  smooth_along n p (linearR n M) X t0 t1.
Proof. exact linear_smooth. Qed.
Print Assumptions C75_linear.
