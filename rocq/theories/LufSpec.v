(** LufSpec.v - the LU decomposition and the two substitutions as sequences of operations in any arithmetic; error bounds. *)
From Coq Require Import List Arith Bool ZArith QArith Qcanon Reals.
From Flocq Require Import Core.
Require Import Verif.Base Verif.LUSpec Verif.LUModel Verif.LufModel.
Import ListNotations.
Local Open Scope nat_scope.

(** Value of the matrix at (r,c): the stored value, zero if there is none. *)
Fixpoint mvalN {N : Num} (e : entriesN N) (r c : nat) : nT N :=
  match e with [] => n0 N | ((r', c'), v) :: t => if (r' =? r) && (c' =? c) then v else mvalN t r c end.
Definition storedN {N : Num} (e : entriesN N) (r c : nat) : Prop := exists v, In ((r, c), v) e.
(** The stencils LUFactorizer accepts (as in LUSpec): indices below n; every row has a stored element on or left of the diagonal, every column one on or above it. *)
Definition acceptableN {N : Num} (e : entriesN N) (n : nat) : Prop :=
  (forall r c, storedN e r c -> r < n /\ c < n) /\
  (forall i, i < n -> (exists c, storedN e i c /\ c <= i) /\ (exists r, storedN e r i /\ r <= i)).
(** If a column has a stored element at or above row r, then row r has a stored element in that column or further right. *)
Definition coversN {N : Num} (e : entriesN N) (n : nat) : Prop :=
  forall r c, r < c < n -> (exists r', r' <= r /\ storedN e r' c) -> exists c', c <= c' /\ storedN e r c'.
(** Position (r,c) lies in the profile: right of (or at) the first stored element of its row if below the diagonal, below (or at) the first of its column otherwise. *)
Definition sky {N : Num} (e : entriesN N) (r c : nat) : bool :=
  if c <? r then existsb (fun x => (fst (fst x) =? r) && (snd (fst x) <=? c)) e
  else existsb (fun x => (snd (fst x) =? c) && (fst (fst x) <=? r)) e.
(** Row r has a stored element in column c or further right. *)
Definition reaches {N : Num} (e : entriesN N) (r c : nat) : bool := existsb (fun x => (fst (fst x) =? r) && (c <=? snd (fst x))) e.

(** v, minus g k for every k of the list, one after the other. *)
Definition minus_all {N : Num} (ks : list nat) (g : nat -> nT N) (v : nT N) : nT N := fold_left (fun s k => nsub N s (g k)) ks v.
(** Decomposition without pivoting, within the profile: the products L(r,k) U(k,c) of positions in the profile are subtracted from A(r,c) in the order of k. *)
Definition doolittle {N : Num} (e : entriesN N) (n : nat) (L U : nat -> nat -> nT N) : Prop :=
  (forall r c, c < r < n -> sky e r c = true ->
     L r c = ndiv N (minus_all (filter (fun k => sky e r k && sky e k c) (seq 0 c)) (fun k => nmul N (L r k) (U k c)) (mvalN e r c)) (U c c)) /\
  (forall r c, r <= c < n -> sky e r c = true ->
     U r c = minus_all (filter (fun k => sky e r k && sky e k c) (seq 0 r)) (fun k => nmul N (L r k) (U k c)) (mvalN e r c)).
(** Forward substitution, then backward substitution. *)
Definition substituted {N : Num} (e : entriesN N) (n : nat) (L U : nat -> nat -> nT N) (b y x : nat -> nT N) : Prop :=
  (forall r, r < n -> y r = minus_all (filter (sky e r) (seq 0 r)) (fun k => nmul N (L r k) (y k)) (b r)) /\
  (forall r, r < n -> x r = ndiv N (minus_all (filter (fun k => sky e r k && reaches e r k) (seq (S r) (n - S r))) (fun k => nmul N (U r k) (x k)) (y r)) (U r r)).
(** The factors as read from the stored arrays. *)
Definition factorsN {N : Num} (st : luN N) (e : entriesN N) (n : nat) (L U : nat -> nat -> nT N) : Prop :=
  (forall r c, c < r < n -> sky e r c = true -> getLN (nlay st) (nl st) r c = Ret (L r c)) /\
  (forall r c, r <= c < n -> sky e r c = true -> getUN (nlay st) (nu st) r c = Ret (U r c)) /\
  (forall r c, r < n -> c < n -> sky e r c = false -> (c < r -> L r c = n0 N) /\ (r <= c -> U r c = n0 N)).
(** An object of LUModel.v as an object over the rationals. *)
Definition asN (st : lu) : luN QcNum := mkLuN (N:=QcNum) (ulay st) (ul st) (uu st) (ufact st).

Local Open Scope R_scope.
(** A rounding with relative error u: no underflow, no overflow. *)
Definition relative (rnd : R -> R) (u : R) : Prop := forall z, Rabs (rnd z - z) <= u * Rabs z.
(** The usual bound for m operations. *)
Definition gam (m : nat) (u : R) : R := INR m * u / (1 - INR m * u).
(** Unit lower triangular matrix with the elements of L below the diagonal; upper triangle of U. *)
Definition lowR (L : nat -> nat -> R) (r c : nat) : R := if (c <? r)%nat then L r c else if (c =? r)%nat then 1 else 0.
Definition uppR (U : nat -> nat -> R) (r c : nat) : R := if (r <=? c)%nat then U r c else 0.
(** Doubles without limits of the exponent. *)
Definition binary53 : R -> R := round radix2 (FLX_exp 53) ZnearestE.
