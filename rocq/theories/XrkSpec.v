(** XrkSpec.v - vocabulary for the order of the extrapolation solver. *)
From Coq Require Import List Arith ZArith QArith Qcanon.
From Verif Require Import Base VecModel VOps RkModel RkSpec StepModel ExtModel ExtSpec.
Import ListNotations.
Local Open Scope nat_scope.

(** The step sequence delivers the numbers of steps [ns] after every reset. *)
Definition delivers {Q : Type} (sq : stepseq Q) (ns : list nat) : Prop :=
  forall q, exists zs q', sq_take sq (length ns) (sq_reset sq q) = Ret (zs, q') /\ map Z.to_nat zs = ns.
(** A client of the extrapolation solver: doStep calls that all return normally, with the time that passed in each of them. *)
Inductive x_run {S Q : Type} (rs : refsolver QcNum S) (sq : stepseq Q) (c : xcfg QcNum) : xst QcNum S Q -> list Qc -> xst QcNum S Q -> Prop :=
| xrun_end s : x_run rs sq c s [] s
| xrun_step s fuel s1 posts a l s2 : x_step (N:=QcNum) rs sq no_events c fuel s = (s1, posts, Some (AAccepted a)) ->
    x_run rs sq c s1 l s2 -> x_run rs sq c s ((x_t s1 - x_t s)%Qc :: l) s2.
(** Every accepted step, from a state of n variables, is a step of the Runge-Kutta method with the table co: time advances by the size of the step, and the new state is that of the textbook. *)
Definition steps_by {S Q : Type} (rs : refsolver QcNum S) (sq : stepseq Q) (c : xcfg QcNum) (n : nat) (f : Qc -> list Qc -> Outcome (list Qc)) (co : coeffs QcNum) (stages : nat) : Prop :=
  forall fuel (s s' : xst QcNum S Q) posts a, length (x_x s) = n -> x_step (N:=QcNum) rs sq no_events c fuel s = (s', posts, Some (AAccepted a)) ->
  exists h, textbook_step co stages n f h (x_t s, x_x s) (x_t s', x_x s').
(** The order reached with the Gragg solver and m stages: 2 m if the expansion in squares is declared, else m rounded up to an even number. *)
Definition gragg_order (sym : bool) (m : nat) : nat := if sym then 2 * m else 2 * ((m + 1) / 2).
