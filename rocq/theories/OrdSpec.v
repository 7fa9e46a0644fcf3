(** OrdSpec.v - vocabulary for statements about the order of a method, in exact rational arithmetic. *)
From Coq Require Import List Arith Bool ZArith QArith Qcanon.
From Verif Require Import Base RkSpec.
Import ListNotations.
Local Open Scope nat_scope.

(** sum of the absolute values of the first n components *)
Definition norm1 (n : nat) (v : nat -> Qc) : Qc := qsum n (fun j => Qcabs (v j)).
(** Near (t, x) the right-hand side is f0 + g*(t'-t) + F*(x'-x) up to an error quadratic in the distance (a function with bounded second derivatives). *)
Definition expands (n : nat) (f : Qc -> list Qc -> Outcome (list Qc)) (t : Qc) (x f0 : list Qc) (g : nat -> Qc) (F : nat -> nat -> Qc) : Prop :=
  exists M rho, (0 <= M)%Qc /\ (0 < rho)%Qc /\ forall (tau : Qc) (y : list Qc), length y = n ->
    let dist := (Qcabs tau + norm1 n (fun k => cmp_ y k - cmp_ x k))%Qc in (dist <= rho)%Qc ->
    exists v, f (t + tau)%Qc y = Ret v /\ length v = n /\
      forall j, j < n -> (Qcabs (cmp_ v j - (cmp_ f0 j + g j * tau + qsum n (fun k => F j k * (cmp_ y k - cmp_ x k)))) <= M * (dist * dist))%Qc.
(** The solution of x' = f(t, x) through (t, x) at time t + h, up to terms of third order. *)
Definition taylor2 (n : nat) (x f0 : list Qc) (g : nat -> Qc) (F : nat -> nat -> Qc) (h : Qc) (j : nat) : Qc :=
  (cmp_ x j + h * cmp_ f0 j + h * h * qc 1 2 * (g j + qsum n (fun k => F j k * cmp_ f0 k)))%Qc.
