(** PropJrn.v - numerical Jacobians in rounded arithmetic (C86). *)
From Coq Require Import List Arith Bool QArith Qcanon Reals.
From Verif Require Import Base SMap SpModel SpSpec MapModel JacModel JacSpec ConvSpec StepSpec FpSpec LufSpec JrnSpec JrnFacts.
Import ListNotations.
Local Open Scope R_scope.

(** Every operation has relative error u; near x0 the outputs of the mapping are computed with an error of at most phi; the derivatives D r c along the coordinates have the Lipschitz constant L
    near x0; the increment dx is not below the rounding error of the components of x0.  Then every element of the computed matrix, stored or not, is the partial derivative up to
    16 L dx + (|D| u (|x_c| + 7 dx) + 8 phi) / dx. *)
Theorem C86_columnwise : forall rnd u (g : vmapping (FNum rnd)) (F : list R -> list R) f n phi (x0 : list R) dx L (D : nat -> nat -> R -> R), relative rnd u -> 0 <= u <= 1 ->
  computes (N:=FNum rnd) g F n n -> evaluated F f n x0 (2 * dx) phi -> length x0 = n ->
  0 < dx -> 0 <= L -> (forall c, (c < n)%nat -> u * Rabs (cmpR x0 c + dx) <= dx) -> (forall r c, (r < n)%nat -> (c < n)%nat -> smooth_along (f r) x0 c (2 * dx) L (D r c)) ->
  exists J log, computeJacobian (N:=FNum rnd) dx g x0 = Ret (J, log) /\ default_provider (N:=FNum rnd) dx None g x0 = Ret (to_fast J) /\ ssz J = (n, n) /\
    forall r c, (r < n)%nat -> (c < n)%nat -> get (to_fast J) (r, c) = get J (r, c) /\
      Rabs (get J (r, c) - D r c (cmpR x0 c)) <= 16 * L * dx + (Rabs (D r c (cmpR x0 c)) * u * (Rabs (cmpR x0 c) + 7 * dx) + 8 * phi) / dx.
Proof. exact (fun rnd u g F f n phi x0 dx L D H1 H2 => jac_rounded rnd u H1 H2 g F f n phi x0 dx L D). Qed.
Print Assumptions C86_columnwise.
(** The compressed evaluation has the same bound at the stored positions, if the computed mapping respects the pattern. *)
Theorem C86_compressed : forall rnd u (g : vmapping (FNum rnd)) (F : list R -> list R) f n phi (x0 : list R) dx L (D : nat -> nat -> R -> R) (J : smat (FNum rnd)), relative rnd u -> 0 <= u <= 1 ->
  computes (N:=FNum rnd) g F n n -> evaluated F f n x0 (2 * dx) phi -> length x0 = n ->
  0 < dx -> 0 <= L -> (forall c, (c < n)%nat -> u * Rabs (cmpR x0 c + dx) <= dx) -> (forall r c, (r < n)%nat -> (c < n)%nat -> smooth_along (f r) x0 c (2 * dx) L (D r c)) ->
  ssz J = (n, n) -> well_sized J -> respects (N:=FNum rnd) F n J ->
  exists J' log, computeSparseJacobian (N:=FNum rnd) dx g x0 J = Ret (J', log) /\ length log = S (length (groups J)) /\ map fst (sdat J') = map fst (sdat J) /\
    forall r c v, In ((r, c), v) (sdat J') -> Rabs (v - D r c (cmpR x0 c)) <= 16 * L * dx + (Rabs (D r c (cmpR x0 c)) * u * (Rabs (cmpR x0 c) + 7 * dx) + 8 * phi) / dx.
Proof. exact (fun rnd u g F f n phi x0 dx L D J H1 H2 => sparse_jac_rounded rnd u H1 H2 g F f n phi x0 dx L D J). Qed.
Print Assumptions C86_compressed.
