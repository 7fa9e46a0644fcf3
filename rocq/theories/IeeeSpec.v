(** IeeeSpec.v - numbers of type double with infinities and NaN, and what they hold (C89). *)
From Coq Require Import List Arith ZArith Reals.
From Flocq Require Import Core IEEE754.BinarySingleNaN.
From Verif Require Import Base VecModel VOps RkModel RkSpec StepModel StepSpec ConvSpec FpSpec.
Import ListNotations.
Local Open Scope R_scope.

(** IEEE 754 binary64 numbers, and the arithmetic on them: to nearest, ties to even; overflow gives an infinity, and invalid operations NaN. *)
Definition double : Type := binary_float 53 1024.
#[global] Instance double_prec : Prec_gt_0 53 := eq_refl.
#[global] Instance double_range : Prec_lt_emax 53 1024 := eq_refl.
Definition dzero : double := B754_zero false.
Definition DNum : Num :=
  mkNum double dzero Bone (Bplus mode_NE) (Bminus mode_NE) (Bmult mode_NE) (Bdiv mode_NE) Bopp Babs Beqb Bltb Bleb.
(** x is a finite number with the value r. *)
Definition holds (x : double) (r : R) : Prop := is_finite x = true /\ B2R x = r.
Definition holdsV (n : nat) (x : list double) (r : list R) : Prop := length x = n /\ length r = n /\ forall j, (j < n)%nat -> holds (nth j x dzero) (cmpR r j).
(** The table in doubles holds the numbers of the table co, all of which are at most A in size. *)
Definition table_holds (A : R) (coD : coeffs DNum) (co : coeffs (FNum binary64)) : Prop :=
  (exists k, holdsV k (co_a coD) (co_a co)) /\ (exists k, holdsV k (co_b coD) (co_b co)) /\ (exists k, holdsV k (co_c coD) (co_c co)) /\ co_last coD = co_last co /\
  forall a, In a (co_a co) \/ In a (co_b co) \/ In a (co_c co) -> Rabs (a : R) <= A.
(** At finite times of size at most S and finite states of size at most B the right-hand side in doubles gives finite numbers, of size at most G, and they are the values of g. *)
Definition rhs_holds (n : nat) (S B G : R) (gD : double -> list double -> list double) (g : R -> list R -> list R) : Prop :=
  forall tD xD t x, holds tD t -> holdsV n xD x -> Rabs t <= S -> bound n x B -> holdsV n (gD tD xD) (g t x) /\ bound n (g t x) G.
Definition sizedD (n : nat) (gD : double -> list double -> list double) : Prop := forall t x, length x = n -> length (gD t x) = n.
Definition rhs_ofD {W : Type} (gD : double -> list double -> list double) : W -> nT DNum -> list (nT DNum) -> Outcome (list (nT DNum)) := fun _ t x => Ret (gD t x).
(** Sizes of slope * (h * coefficient), of the arguments and results of a step from a state of size B, and of the times, for slopes of size G and coefficients of size A. *)
Definition term_size (A G h : R) : R := 2 * (G * (2 * (Rabs h * A) + / 2 ^ 53)) + / 2 ^ 53.
Definition state_size (stages : nat) (A G h B : R) : R := 2 * (B + INR stages * term_size A G h).
Definition time_size (A h S : R) : R := 2 * (S + Rabs h + (2 * (Rabs h * A) + 1)) + 1.
(** The linear right-hand side x' = M x computed in doubles: products added up from the left. *)
Fixpoint dotD (count : nat) (a x : nat -> double) : double := match count with O => dzero | S m => nadd DNum (dotD m a x) (nmul DNum (a m) (x m)) end.
Definition linearD (n : nat) (M : nat -> nat -> double) (t : double) (x : list double) : list double := map (fun i => dotD n (M i) (fun j => nth j x dzero)) (seq 0 n).
(** The double nearest to r, and a table of rational numbers converted to doubles. *)
Definition toD (r : R) : double :=
  binary_normalize 53 1024 double_prec double_range mode_NE (Ztrunc (scaled_mantissa radix2 (FLT_exp (-1074) 53) (binary64 r))) (cexp radix2 (FLT_exp (-1074) 53) (binary64 r)) false.
Definition tabD (co : coeffs RNum) : coeffs DNum := mkCo (N:=DNum) (map toD (co_a co)) (map toD (co_b co)) (map toD (co_c co)) (co_last co).
Definition table_size (A : R) (co : coeffs RNum) : Prop := forall a, In a (co_a co) \/ In a (co_b co) \/ In a (co_c co) -> Rabs (binary64 a) <= A.
(** All entries of the n by n matrix MD hold those of M, and are at most a in size. *)
Definition matrix_holds (n : nat) (a : R) (MD : nat -> nat -> double) (M : nat -> nat -> R) : Prop :=
  forall i j, (i < n)%nat -> (j < n)%nat -> holds (MD i j) (M i j) /\ Rabs (M i j) <= a.
(** The Gragg solver: sizes of the states, and of the times, met in a step from states of size V at a time of size S, for slopes of size G. *)
Definition gragg_size (V G h : R) : R := 2 * (V + (2 * (G * (Rabs h + / 2 ^ 53)) + / 2 ^ 53)) + / 2 ^ 53.
Definition gragg_time (h S : R) : R := 2 * (S + Rabs h + 1) + 1.
