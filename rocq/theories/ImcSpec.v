(** ImcSpec.v - vocabulary for the statements about convergence and contractivity of the implicit alpha solver: its rational states against the
    real solution of the differential equation. *)
From Coq Require Import List Arith ZArith QArith Qcanon Reals.
From Verif Require Import Base VecModel VOps NewtModel RkModel RkSpec StepSpec ImpModel ConvSpec.
Import ListNotations.
Local Open Scope R_scope.

(** A rational state, read as a real one. *)
Definition toR (x : list Qc) : list R := map q2r x.
(** The right-hand side f that the solver calls computes, on rational times and states, the values of the real function g. *)
Definition computes_rhs (n : nat) (f : Qc -> list Qc -> Outcome (list Qc)) (g : R -> list R -> list R) : Prop :=
  forall t x, length x = n -> exists y, f t x = Ret y /\ length y = n /\ toR y = g (q2r t) (toR x).
(** nd second order equations come first: the slopes of the positions are the velocities. *)
Definition positions_first (nd nf : nat) (g : R -> list R -> list R) : Prop :=
  forall t x j, length x = (2 * nd + nf)%nat -> (j < nd)%nat -> cmpR (g t x) j = cmpR x (nd + j)%nat.
(** Euclidean distance. *)
Definition dist2 (n : nat) (x y : list R) : R := sqrt (rsum n (fun j => (cmpR x j - cmpR y j) * (cmpR x j - cmpR y j))).
(** One-sided Lipschitz condition with constant nu: for nu <= 0 solutions of x' = g(t, x) do not move apart. *)
Definition one_sided (n : nat) (nu : R) (g : R -> list R -> list R) : Prop :=
  forall t x y, length x = n -> length y = n ->
  rsum n (fun j => (cmpR (g t x) j - cmpR (g t y) j) * (cmpR x j - cmpR y j)) <= nu * rsum n (fun j => (cmpR x j - cmpR y j) * (cmpR x j - cmpR y j)).
(** The slope of the solution X changes by at most M per unit of time. *)
Definition slope_changes (n : nat) (g : R -> list R -> list R) (X : R -> list R) (t0 t1 M : R) : Prop :=
  forall s t j, t0 <= s <= t1 -> t0 <= t <= t1 -> (j < n)%nat -> Rabs (cmpR (g s (X s)) j - cmpR (g t (X t)) j) <= M * Rabs (s - t).
(** The slope is differentiable, and its derivative A changes by at most M per unit of time. *)
Definition curvature_changes (n : nat) (g : R -> list R -> list R) (X : R -> list R) (A : R -> nat -> R) (t0 t1 M : R) : Prop :=
  (forall t j, t0 <= t <= t1 -> (j < n)%nat -> derivable_pt_lim (fun u => cmpR (g u (X u)) j) t (A t j)) /\
  (forall s t j, t0 <= s <= t1 -> t0 <= t <= t1 -> (j < n)%nat -> Rabs (A s j - A t j) <= M * Rabs (s - t)).
(** Newton's absolute tolerance. *)
Definition tolerance {W P D : Type} (s : ist QcNum W P (perf QcNum (S:=D))) : R := q2r (e_absTol (p_est (i_nw s))).
