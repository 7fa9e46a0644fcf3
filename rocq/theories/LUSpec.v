(** LUSpec.v - what an LU decomposition and a linear solve are, independently of LUFactorizer. *)
From Coq Require Import List Arith ZArith QArith Qcanon Bool.
Require Import Verif.Base.
Import ListNotations.

(** Value of a matrix given by its stored elements: the stored value, 0 if absent. *)
Fixpoint mval (e : list ((nat * nat) * Qc)) (r c : nat) : Qc :=
  match e with
  | [] => 0%Qc
  | ((r', c'), v) :: t => if Nat.eqb r' r && Nat.eqb c' c then v else mval t r c
  end.
(** Position (r,c) is stored. *)
Definition stored (e : list ((nat * nat) * Qc)) (r c : nat) : Prop := exists v, In ((r, c), v) e.
(** Every position is stored at most once (it comes from a map). *)
Definition distinct_keys {V} (e : list ((nat * nat) * V)) : Prop := NoDup (map fst e).

(** n x n system  A x = b *)
Definition solves (n : nat) (A : nat -> nat -> Qc) (x b : nat -> Qc) : Prop :=
  forall r, (r < n)%nat -> qsum n (fun c => A r c * x c)%Qc = b r.

Definition unit_lower (n : nat) (L : nat -> nat -> Qc) : Prop :=
  forall r c, (r < n)%nat -> (c < n)%nat -> (r = c -> L r c = 1%Qc) /\ ((r < c)%nat -> L r c = 0%Qc).
Definition upper (n : nat) (U : nat -> nat -> Qc) : Prop :=
  forall r c, (r < n)%nat -> (c < n)%nat -> (c < r)%nat -> U r c = 0%Qc.
Definition is_product (n : nat) (L U A : nat -> nat -> Qc) : Prop :=
  forall r c, (r < n)%nat -> (c < n)%nat -> qsum n (fun k => L r k * U k c)%Qc = A r c.

(** All leading principal submatrices are nonsingular. *)
Definition leading_nonsingular (n : nat) (A : nat -> nat -> Qc) : Prop :=
  forall k, (k <= n)%nat ->
  forall x : nat -> Qc,
    (forall r, (r < k)%nat -> qsum k (fun c => A r c * x c)%Qc = 0%Qc) ->
    forall c, (c < k)%nat -> x c = 0%Qc.

(** vector as a function *)
Definition vfun (v : list Qc) (i : nat) : Qc := nth i v 0%Qc.

(** The stencils LUFactorizer accepts for size n: indices below n, and every row (column) has a stored
    element on or left of (above) the diagonal.  A stencil with full diagonal is such. *)
Definition acceptable (e : list ((nat * nat) * Qc)) (n : nat) : Prop :=
  (forall r c, stored e r c -> (r < n /\ c < n)%nat) /\
  (forall i, (i < n)%nat -> (exists c, stored e i c /\ (c <= i)%nat) /\ (exists r, stored e r i /\ (r <= i)%nat)).

(** Position (r,c) lies in the profile (skyline) of the stencil: below the diagonal, right of the first
    stored element of its row; on or above it, below the first stored element of its column. *)
Definition in_skyline (e : list ((nat * nat) * Qc)) (r c : nat) : Prop :=
  ((c < r)%nat /\ exists c0, (c0 <= c)%nat /\ stored e r c0) \/
  ((r <= c)%nat /\ exists r0, (r0 <= r)%nat /\ stored e r0 c).

(** The factor U of A has no nonzero element right of the last stored element of a row of the stencil. *)
Definition fill_covered (e : list ((nat * nat) * Qc)) (A : nat -> nat -> Qc) (n : nat) : Prop :=
  forall L U, unit_lower n L -> upper n U -> is_product n L U A ->
  forall r c, (r < c < n)%nat -> (forall c', (c <= c')%nat -> ~ stored e r c') -> U r c = 0%Qc.

(** Stencil condition: if a column has a stored element at or above row r, then row r has a stored element
    in that column or further right. *)
Definition stencil_covers (e : list ((nat * nat) * Qc)) (n : nat) : Prop :=
  forall r c, (r < c < n)%nat -> (exists r', (r' <= r)%nat /\ stored e r' c) -> exists c', (c <= c')%nat /\ stored e r c'.

(** Band matrix stencil with w diagonals on each side. *)
Definition banded (e : list ((nat * nat) * Qc)) (n w : nat) : Prop :=
  forall r c, (r < n)%nat -> (c < n)%nat -> (stored e r c <-> (r <= c + w /\ c <= r + w)%nat).

(** row i sees some nonzero component of s at or right of the diagonal within the stencil *)
Definition hart_visible (e : list ((nat * nat) * Qc)) (n : nat) (s : list Qc) : Prop :=
  forall i, (i < n)%nat -> exists k, (i <= k)%nat /\ vfun s k <> 0%Qc /\
    (exists k', (k <= k')%nat /\ stored e i k') /\ (exists r, (r <= i)%nat /\ stored e r k).


(** The proportional update of the factors L, U of a matrix by a step s and a vector y, row i: with c the i-th component
    of the product by s of the matrix whose rows above i are updated already, the row of both factors is multiplied by
    y_i / c + 1; it is left alone if y_i = 0. *)
Definition row_image (n : nat) (s : nat -> Qc) (L U U' : nat -> nat -> Qc) (i : nat) : Qc :=
  (qsum i (fun k => L i k * qsum n (fun c => U' k c * s c)) + qsum n (fun c => U i c * s c))%Qc.
Definition proportional_row (n : nat) (s y : nat -> Qc) (L U L' U' : nat -> nat -> Qc) (i : nat) : Prop :=
  exists f, (y i = 0 -> f = 1)%Qc /\ (y i <> 0 -> row_image n s L U U' i <> 0 /\ f = y i / row_image n s L U U' i + 1)%Qc /\
    (forall k, (k < i)%nat -> L' i k = f * L i k)%Qc /\ (forall k, (i <= k < n)%nat -> U' i k = f * U i k)%Qc.
