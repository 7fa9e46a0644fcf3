(** UtilSpec.v - vocabulary for C47, C50, C53. *)
From Coq Require Import List Arith Bool ZArith QArith Qcanon Reals.
From Verif Require Import Base RkSpec UtilModel.
Import ListNotations.
Local Open Scope nat_scope.

(** * Samples: vectors of n components; component j over all samples *)
Definition samples (n : nat) (l : list (list Qc)) : Prop := Forall (fun e => length e = n) l.
Definition sum_abs (l : list (list Qc)) (j : nat) : Qc := qsuml (map (fun e => Qcabs (cmp_ e j)) l).
Definition sum_squares (l : list (list Qc)) (j : nat) : Qc := qsuml (map (fun e => cmp_ e j * cmp_ e j)%Qc l).
(** m is the largest absolute value, 0 for no samples *)
Definition largest_abs (l : list (list Qc)) (j : nat) (m : Qc) : Prop :=
  (0 <= m)%Qc /\ (forall e, In e l -> Qcabs (cmp_ e j) <= m)%Qc /\ (m = 0%Qc \/ exists e, In e l /\ m = Qcabs (cmp_ e j)).
(** Statistics of n-component samples collected one by one *)
Definition stats_of (n : nat) (l : list (list Qc)) : estats := fst (es_run l (es_new n)).
(** Timings *)
Definition timed (l : list Z) : tstats := fold_left (fun s t => ts_add t s) l ts_new.
Definition total (l : list Z) : Z := fold_right Z.add 0%Z l.

(** * Cubic polynomials a + b t + c t^2 + d t^3 *)
Definition cubic_poly (a b c d t : R) : R := (a + b * t + c * t ^ 2 + d * t ^ 3)%R.
Definition cubic_slope (b c d t : R) : R := (b + 2 * c * t + 3 * d * t ^ 2)%R.
