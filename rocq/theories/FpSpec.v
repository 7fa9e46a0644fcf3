(** FpSpec.v - vocabulary for the statements about the explicit Runge-Kutta solvers in rounded (floating point) arithmetic. *)
From Coq Require Import List Arith ZArith QArith Qcanon Reals.
From Flocq Require Import Core.
From Verif Require Import Base VecModel VOps RkModel RkSpec StepModel StepSpec ConvSpec.
Import ListNotations.
Local Open Scope nat_scope.

(** Any arithmetic.  v, then + k_0[j] * (h * c_0), then + k_1[j] * (h * c_1), ... in this order, c_i being the entries p, p+1, ... of the table cs;
    zero coefficients are left out. *)
Fixpoint acc_of {N : Num} (cs : list (nT N)) (p : nat) (h : nT N) (ks : list (list (nT N))) (j count : nat) (v : nT N) : nT N :=
  match count with
  | O => v
  | S m => let w := acc_of cs p h ks j m v in let a := nth (p + m) cs (n0 N) in
           if neqb N a (n0 N) then w else nadd N w (nmul N (nth j (nth m ks []) (n0 N)) (nmul N h a))
  end.
(** The step by the textbook, the operations carried out in the arithmetic N: evaluations (time, argument), slopes, results. *)
Definition stagesN {N : Num} (co : coeffs N) (stages n : nat) (f : nT N -> list (nT N) -> Outcome (list (nT N))) (x1 : list (nT N)) (t1 h : nT N)
    (evals : list (nT N * list (nT N))) (k : list (list (nT N))) : Prop :=
  length evals = stages /\ length k = stages /\
  forall s, s < stages -> exists t arg,
    nth_error evals s = Some (t, arg) /\ f t arg = Ret (nth s k []) /\ length arg = n /\ length (nth s k []) = n /\
    t = match s with O => t1 | S q => nadd N t1 (nmul N h (nth q (co_c co) (n0 N))) end /\
    forall j, j < n -> nth j arg (n0 N) = acc_of (co_a co) (tri s) h k j s (nth j x1 (n0 N)).
Definition resultN {N : Num} (co : coeffs N) (stages n ix : nat) (x1 : list (nT N)) (h : nT N) (k : list (list (nT N))) (x2 : list (nT N)) : Prop :=
  length x2 = n /\ forall j, j < n -> nth j x2 (n0 N) = acc_of (co_b co) (ix * stages) h k j stages (nth j x1 (n0 N)).
(** Calls of the adaptive solver's doStep that all return normally, with the sizes of the accepted steps, in any arithmetic. *)
Inductive adaptive_runN {N : Num} {W : Type} (f : W -> nT N -> list (nT N) -> Outcome (list (nT N))) (c : erkcfg N) : rkst N W -> list (nT N) -> rkst N W -> Prop :=
| runN_end s : adaptive_runN f c s [] s
| runN_step s fuel s1 posts a l s2 : erk_step no_events f c fuel s = (s1, posts, Some (AAccepted a)) ->
    adaptive_runN f c s1 l s2 -> adaptive_runN f c s (pa_h a :: l) s2.

Local Open Scope R_scope.
(** Rounded arithmetic: every operation delivers the rounded exact result.  Signs, absolute values and comparisons are exact.
    No infinities and no NaN: the exponent range is unbounded above. *)
Definition FNum (rnd : R -> R) : Num :=
  mkNum R 0 1 (fun x y => rnd (x + y)) (fun x y => rnd (x - y)) (fun x y => rnd (x * y)) (fun x y => rnd (x / y)) Ropp Rabs Reqb Rltb Rleb.
(** A rounding with relative error u and absolute error eta (underflow). *)
Definition rounds (rnd : R -> R) (u eta : R) : Prop := rnd 0 = 0 /\ forall z, Rabs (rnd z - z) <= u * Rabs z + eta.
(** IEEE binary64, to nearest, ties to even; gradual underflow. *)
Definition binary64 : R -> R := round radix2 (FLT_exp (-1074) 53) ZnearestE.
(** The coefficients, each rounded once. *)
Definition tabF (rnd : R -> R) (co : coeffs RNum) : coeffs (FNum rnd) :=
  mkCo (N:=FNum rnd) (map rnd (co_a co)) (map rnd (co_b co)) (map rnd (co_c co)) (co_last co).
(** All components of x are at most b in size. *)
Definition bound (n : nat) (x : list R) (b : R) : Prop := forall j, (j < n)%nat -> Rabs (cmpR x j) <= b.
(** g computes f up to the relative accuracy phi. *)
Definition accurate (n : nat) (phi : R) (f g : R -> list R -> list R) : Prop :=
  forall t x b, length x = n -> bound n x b -> near n (g t x) (f t x) (phi * (1 + Rabs t + b)).
(** The right-hand side as the solver calls it. *)
Definition rhs_ofF {W : Type} (rnd : R -> R) (g : R -> list R -> list R) : W -> nT (FNum rnd) -> list (nT (FNum rnd)) -> Outcome (list (nT (FNum rnd))) := fun _ t x => Ret (g t x).
(** A linear right-hand side x' = M x; and the same computed with rounded operations: sums of rounded products, added up from the left. *)
Definition linearR (n : nat) (M : nat -> nat -> R) (t : R) (x : list R) : list R := map (fun i => rsum n (fun j => M i j * cmpR x j)) (seq 0 n).
Fixpoint dotF (rnd : R -> R) (count : nat) (a x : nat -> R) : R := match count with O => 0 | S m => rnd (dotF rnd m a x + rnd (a m * x m)) end.
Definition linearF (rnd : R -> R) (n : nat) (M : nat -> nat -> R) (t : R) (x : list R) : list R := map (fun i => dotF rnd n (M i) (cmpR x)) (seq 0 n).
