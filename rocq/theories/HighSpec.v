(** HighSpec.v - vocabulary for the statements about the order of convergence: Taylor expansions of a right-hand side in time and state. *)
From Coq Require Import List Arith ZArith QArith Qcanon Reals.
From Verif Require Import Base VecModel VOps RkModel RkSpec StepSpec ConvSpec.
Import ListNotations.
Local Open Scope R_scope.

(** The multilinear form with coefficients c applied to the vectors us (of dimension N): the sum over all index tuples (i1, ..., im) of
    c [i1; ...; im] * us_1(i1) * ... * us_m(im). *)
Fixpoint form (N : nat) (c : list nat -> R) (us : list (nat -> R)) : R :=
  match us with [] => c [] | u :: r => rsum N (fun i => u i * form N (fun l => c (i :: l)) r) end.
(** The displacement from (t, x) to (s, y): component 0 is time, component j + 1 is variable j. *)
Definition shift (t : R) (x : list R) (s : R) (y : list R) : nat -> R := fun i => match i with O => s - t | S j => cmpR y j - cmpR x j end.
(** f has a Taylor expansion with p terms at (t, x): D j [i1; ...; im] is the partial derivative of component j with respect to the variables
    i1, ..., im (0 is time); all are bounded by B, and so is the remainder, divided by the p-th power of the distance, within distance rho. *)
Definition taylor (n p : nat) (f : R -> list R -> list R) (t : R) (x : list R) (D : nat -> list nat -> R) (rho B : R) : Prop :=
  (forall j idx, (j < n)%nat -> (length idx < p)%nat -> Rabs (D j idx) <= B) /\
  (forall s y d, length y = n -> Rabs (s - t) <= d -> near n y x d -> d <= rho -> forall j, (j < n)%nat ->
     Rabs (cmpR (f s y) j - rsum p (fun m => form (S n) (D j) (repeat (shift t x s y) m) / INR (fact m))) <= B * d ^ p).
(** f is p times differentiable along the solution X on [t0, t1], uniformly. *)
Definition smooth_along (n p : nat) (f : R -> list R -> list R) (X : R -> list R) (t0 t1 : R) : Prop :=
  exists (D : R -> nat -> list nat -> R) rho B, 0 < rho /\ 0 <= B /\ forall t, t0 <= t <= t1 -> taylor n p f t (X t) (D t) rho B.

(** The point at parameter th on the line through x with direction v (component 0 of v is time). *)
Definition along (n : nat) (x : list R) (v : nat -> R) (th : R) : list R := map (fun j => cmpR x j + th * v (S j)) (seq 0 n).
(** E t x j [i1; ...; im] are the partial derivatives of component j of f at (t, x), up to order p: of order 0 it is the component itself, and along
    every line the derivative of the m-th differential is the (m+1)-th. *)
Definition derivatives (n p : nat) (f : R -> list R -> list R) (E : R -> list R -> nat -> list nat -> R) : Prop :=
  (forall t x j, length x = n -> (j < n)%nat -> E t x j [] = cmpR (f t x) j) /\
  (forall t x j v m th, length x = n -> (j < n)%nat -> (m < p)%nat ->
     derivable_pt_lim (fun th => form (S n) (E (t + th * v 0%nat) (along n x v th) j) (repeat v m)) th
       (form (S n) (E (t + th * v 0%nat) (along n x v th) j) (repeat v (S m)))).
(** The derivatives up to order p are bounded by B within distance rho of the solution. *)
Definition bounded_near (n p : nat) (E : R -> list R -> nat -> list nat -> R) (X : R -> list R) (t0 t1 rho B : R) : Prop :=
  forall s t x j idx, t0 <= s <= t1 -> Rabs (t - s) <= rho -> length x = n -> near n x (X s) rho -> (j < n)%nat -> (length idx <= p)%nat -> Rabs (E t x j idx) <= B.

(** Order conditions that hold up to delta (the published coefficients of the 8(7) table are rounded), and a bound on the table entries. *)
Definition order_upto (co : coeffs QcNum) (stages ix p : nat) (delta : Qc) : Prop :=
  (forall t, (order t <= p)%nat -> (Qcabs (weight co stages ix t - 1 / qn (density t)) <= delta)%Qc) /\
  (forall s, (s < stages)%nat -> (Qcabs (qsum s (fun i => A_ co s i) - C_ co s) <= delta)%Qc).
Definition entries_upto (co : coeffs QcNum) (A : Qc) : Prop := Forall (fun e => (Qcabs e <= A)%Qc) (co_a co ++ co_b co ++ co_c co).
