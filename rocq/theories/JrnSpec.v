(** JrnSpec.v - vocabulary of PropJrn.v. *)
From Coq Require Import List Arith Reals.
From Verif Require Import Base ConvSpec.
Local Open Scope R_scope.
(** f, as a function of component c of its argument (the other components those of x0), has the derivative D at the distance of at most rad from x0, and D is Lipschitz there. *)
Definition smooth_along (f : list R -> R) (x0 : list R) (c : nat) (rad L : R) (D : R -> R) : Prop :=
  forall s, Rabs (s - cmpR x0 c) <= rad -> derivable_pt_lim (fun t => f (upd x0 c t)) s (D s) /\ Rabs (D s - D (cmpR x0 c)) <= L * Rabs (s - cmpR x0 c).
(** Within rad of x0, in each component, F is evaluated with an error of at most phi. *)
Definition evaluated (F : list R -> list R) (f : nat -> list R -> R) (n : nat) (x0 : list R) (rad phi : R) : Prop :=
  forall x r, length x = n -> (r < n)%nat -> (forall i, Rabs (cmpR x i - cmpR x0 i) <= rad) -> Rabs (cmpR (F x) r - f r x) <= phi.
