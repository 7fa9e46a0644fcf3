(** IfpSpec.v - vocabulary for the statements about the implicit alpha solver and Newton's method in rounded arithmetic. *)
From Coq Require Import List Arith Reals.
From Verif Require Import Base VecModel VOps NewtModel RkModel StepSpec ImpModel ConvSpec FpSpec.
Import ListNotations.
Local Open Scope R_scope.

(** Rounding a rounded number changes nothing; a number that rounding does not change is a machine number. *)
Definition idempotent (rnd : R -> R) : Prop := forall z, rnd (rnd z) = rnd z.
Definition machine (rnd : R -> R) (x : list R) : Prop := forall v, In v x -> rnd v = v.
(** The right-hand side that the solver calls returns, at times of size at most S and states of size at most B, the values of g up to phi. *)
Definition computes_near (n : nat) (S B phi : R) (f : R -> list R -> Outcome (list R)) (g : R -> list R -> list R) : Prop :=
  forall t x, length x = n -> exists y, f t x = Ret y /\ length y = n /\ (Rabs t <= S -> bound n x B -> near n y (g t x) phi).
(** There the slopes are at most G, and change by at most Lt per unit of time. *)
Definition slopes_within (n : nat) (S B G Lt : R) (g : R -> list R -> list R) : Prop :=
  forall t s x, Rabs t <= S -> Rabs s <= S -> length x = n -> bound n x B -> bound n (g t x) G /\ near n (g t x) (g s x) (Lt * Rabs (t - s)).
(** Newton's absolute tolerance. *)
Definition toleranceF {rnd : R -> R} {W P D : Type} (s : ist (FNum rnd) W P (perf (FNum rnd) (S:=D))) : R := e_absTol (p_est (i_nw s)).
(** What one step adds to the tolerance: w is the error of one rounding, phi that of one evaluation, A = 1 + |t0| + T. *)
Definition step_noise (B G Lt A T h w phi : R) : R := (60 * (1 + B + G + phi) * (1 + h) + 2 * T * Lt * A) * w + h * phi.
