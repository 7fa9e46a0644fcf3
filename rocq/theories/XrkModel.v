(** XrkModel.v - the order a solver says it has.
    Models order() and lowOrder() of /repo/include/ode_num_int/ode/OdeSolverExtrapolator.h; order() of the Gragg solver (OdeSolverGragg.h 31-33) is 2, that of the explicit
    Runge-Kutta solvers (OdeSolverExplicitRK.h 31-33) a constructor argument: 1 for Euler (OdeSolverExplicitEuler.h), 4 for RK4 (OdeSolverRK4.h). *)
From Coq Require Import ZArith.
Local Open Scope Z_scope.

(** OdeSolverExtrapolator.h 40-48 order, with a reference solver of order ref_order.  Simplification: the unsigned arithmetic is that of the integers, which is the same for 1 <= max_stages < 2^30. *)
Definition x_order (ref_order : nat) (max_stages : nat) (sym : bool) : Z := Z.of_nat ref_order + (Z.of_nat max_stages - 1) * (if sym then 2 else 1).
(** OdeSolverExtrapolator.h 50-52 lowOrder: the order given to the step size controller *)
Definition x_low_order (ref_order : nat) (max_stages : nat) (sym : bool) : Z := x_order ref_order max_stages sym - (if sym then 2 else 1).
