(** RcvSpec.v - vocabulary for C81: runs of the Rosenbrock solvers. *)
From Coq Require Import List Arith ZArith QArith Qcanon Reals.
From Verif Require Import Base VecModel VOps RkModel StepModel RosModel RosSpec ConvSpec.
Import ListNotations.
Local Open Scope nat_scope.
(** Accepted steps of W1, none of them cut short by an event, with the sizes set by setInitialStepSize; the list has the sizes of the steps. *)
Inductive w1_path {W : Type} (ev : events QcNum W) (c : rcfg W) : rst W -> list Qc -> rst W -> Prop :=
| w1_stop s : w1_path ev c s [] s
| w1_resized s h l s' : w1_path ev c (q_setStep h s) l s' -> w1_path ev c s l s'
| w1_go s s1 a l s' : w1_step ev c s = (s1, AAccepted a) -> pa_trunc a = false -> solvable (q_ros s1) (q_h s * rc_d c)%Qc -> w1_path ev c s1 l s' -> w1_path ev c s (q_h s :: l) s'.
(** The same for SW2(4).  The list has, for each call of doStep, the size of the first attempt, whose decomposition is used, and the size of the accepted one;
    with second order variables the first attempt is accepted (C45). *)
Inductive sw_path {W : Type} (ev : events QcNum W) (c : rcfg W) : rst W -> list (Qc * Qc) -> rst W -> Prop :=
| sw_stop s : sw_path ev c s [] s
| sw_resized s h l s' : sw_path ev c (q_setStep h s) l s' -> sw_path ev c s l s'
| sw_go s fuel s1 p a l s' : sw_step ev c fuel s = (s1, p, Some (AAccepted a)) -> pa_trunc a = false -> solvable (q_ros s1) (q_h s * rc_d c)%Qc -> rc_n2 c = 0 \/ length p = 1 ->
    sw_path ev c s1 l s' -> sw_path ev c s ((q_h s, pa_h a) :: l) s'.
(** A bound of the row sums of the Jacobian in use times the parameter d of the method. *)
Definition stiffness {W : Type} (c : rcfg W) (L : R) : R := (Rabs (q2r (rc_d c)) * (1 + INR (rc_n c) * L))%R.
