(** DomSpec.v - classes of matrices for which elimination needs no pivoting. *)
From Coq Require Import List Arith QArith Qcanon.
From Verif Require Import Base.
Local Open Scope Qc_scope.

(** In every row (column) the diagonal element exceeds the sum of the others in absolute value. *)
Definition row_dominant (n : nat) (A : nat -> nat -> Qc) : Prop :=
  forall r, (r < n)%nat -> qsum n (fun c => if Nat.eqb c r then 0 else Qcabs (A r c)) < Qcabs (A r r).
Definition column_dominant (n : nat) (A : nat -> nat -> Qc) : Prop :=
  forall c, (c < n)%nat -> qsum n (fun r => if Nat.eqb r c then 0 else Qcabs (A r c)) < Qcabs (A c c).
(** x' A x; it is positive for all x but zero, the matrix need not be symmetric. *)
Definition form (n : nat) (A : nat -> nat -> Qc) (x : nat -> Qc) : Qc := qsum n (fun r => x r * qsum n (fun c => A r c * x c)).
Definition positive_definite (n : nat) (A : nat -> nat -> Qc) : Prop := forall x, (exists i, (i < n)%nat /\ x i <> 0) -> 0 < form n A x.
