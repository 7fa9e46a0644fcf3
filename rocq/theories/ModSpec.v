(** ModSpec.v - vocabulary for the statements about the test models. *)
From Coq Require Import List Arith ZArith QArith Qcanon.
From Verif Require Import Base VecModel VOps RkModel RkSpec EvModel ModModel.
Import ListNotations.
Local Open Scope nat_scope.

(** * The bouncing ball.  The state is [height; speed]. *)
Definition bstate : Type := rkst QcNum (ctl QcNum * bool).
Definition height (s : bstate) : Qc := cmp_ (rk_x s) 0.
Definition speed (s : bstate) : Qc := cmp_ (rk_x s) 1.
(** the flag m_sticking *)
Definition stuck (s : bstate) : Prop := snd (rk_w s) = true.
(** Twice the mechanical energy of a unit mass: v^2 + 2 g y *)
Definition energy (g : Qc) (s : bstate) : Qc := (speed s * speed s + qc 2 1 * g * height s)%Qc.
(** The method integrates a constant acceleration exactly. *)
Definition order_two (co : coeffs QcNum) (stages : nat) : Prop := order_conditions co stages 0 2 /\ row_sums co stages.
(** The height of a free flight after k steps of size h *)
Definition free_height (g y0 v0 h : Qc) (k : nat) : Qc := (y0 + v0 * (qn k * h) - g * (qn k * h) * (qn k * h) / qc 2 1)%Qc.
Definition free_speed (g v0 h : Qc) (k : nat) : Qc := (v0 - g * (qn k * h))%Qc.

(** * Oscillators *)
(** Twice the energy of the linear oscillator x'' = f - c x, times c, counted from the equilibrium *)
Definition osc_energy (c f : Qc) (x : list Qc) : Qc := (c * (cmp_ x 1 * cmp_ x 1) + (c * cmp_ x 0 - f) * (c * cmp_ x 0 - f))%Qc.
(** The chain: positions x_0 .. x_(n-1), speeds x_n .. x_(2n-1).  Spring i connects mass i with its predecessor, spring 0 with the wall. *)
Definition spring (x : list Qc) (i : nat) : Qc := match i with O => cmp_ x 0 | S j => (cmp_ x (S j) - cmp_ x j)%Qc end.
(** the potential energy of a spring: help text of CoupledNonlinearOscillators, c0*x^2/2 + c2*x^4/4 *)
Definition potential (c0 c2 d : Qc) : Qc := (c0 * (d * d) / qc 2 1 + c2 * (d * d * (d * d)) / qc 4 1)%Qc.
(** kinetic energy of unit masses, potential energy of the springs, work of the constant force on the last mass *)
Definition chain_energy (n : nat) (c0 c2 f : Qc) (x : list Qc) : Qc :=
  (qsum n (fun i => cmp_ x (n + i) * cmp_ x (n + i) / qc 2 1) + qsum n (fun i => potential c0 c2 (spring x i)) - f * cmp_ x (n - 1))%Qc.
(** the tension of spring i, and of what is beyond the last mass: the force *)
Definition tension (n : nat) (c0 c2 f : Qc) (x : list Qc) (i : nat) : Qc := if i =? n then f else (c0 * spring x i + c2 * (spring x i * spring x i * spring x i))%Qc.
(** the state moved by e along the slopes *)
Definition moved (n : nat) (x y : list Qc) (e : Qc) : list Qc := map (fun i => (cmp_ x i + e * cmp_ y i)%Qc) (seq 0 n).
(** what one step of the classical Runge-Kutta method does to that energy: 1 - z^3/72 + z^4/576 with z = c h^2 *)
Definition rk4_factor (c h : Qc) : Qc := let z := (c * (h * h))%Qc in (1 - z * z * z / qc 72 1 + z * z * (z * z) / qc 576 1)%Qc.
(** the first terms of exp(-z), z = h a *)
Definition rk4_decay (a h : Qc) : Qc := let z := (h * a)%Qc in (1 - z + z * z / qc 2 1 - z * z * z / qc 6 1 + z * z * (z * z) / qc 24 1)%Qc.
