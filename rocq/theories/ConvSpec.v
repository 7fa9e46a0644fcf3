(** ConvSpec.v - vocabulary for the statements about stability and convergence of the explicit Runge-Kutta solvers over the real numbers. *)
From Coq Require Import List Arith ZArith QArith Qcanon Reals Qreals.
From Verif Require Import Base VecModel VOps RkModel RkSpec StepModel StepSpec.
Import ListNotations.
Local Open Scope R_scope.

(** The tables of the library, read as real numbers. *)
Definition q2r (q : Qc) : R := Q2R (this q).
Definition tabR (co : coeffs QcNum) : coeffs RNum := mkCo (N:=RNum) (map q2r (co_a co)) (map q2r (co_b co)) (map q2r (co_c co)) (co_last co).
Fixpoint rsum (n : nat) (g : nat -> R) : R := match n with O => 0 | S m => rsum m g + g m end.
(** Entries of a real table: a_{s,i}, b_s of result row ix, c_s (c_0 = 0). *)
Definition AR_ (co : coeffs RNum) (s i : nat) : R := nth (tri s + i)%nat (co_a co) 0.
Definition BR_ (co : coeffs RNum) (stages ix s : nat) : R := nth (ix * stages + s)%nat (co_b co) 0.
Definition CR_ (co : coeffs RNum) (s : nat) : R := match s with O => 0 | S s' => nth s' (co_c co) 0 end.
Definition cmpR (v : list R) (j : nat) : R := nth j v 0.

(** The textbook step, as in RkSpec.v, over the reals. *)
Definition stagesR (co : coeffs RNum) (stages n : nat) (f : R -> list R -> Outcome (list R)) (x1 : list R) (t1 h : R)
    (evals : list (R * list R)) (k : list (list R)) : Prop :=
  length evals = stages /\ length k = stages /\
  forall s, (s < stages)%nat -> exists arg,
    nth_error evals s = Some (t1 + h * CR_ co s, arg) /\
    f (t1 + h * CR_ co s) arg = Ret (nth s k []) /\ length arg = n /\
    forall j, (j < n)%nat -> cmpR arg j = cmpR x1 j + h * rsum s (fun i => AR_ co s i * cmpR (nth i k []) j).
Definition resultR (co : coeffs RNum) (stages n ix : nat) (x1 : list R) (h : R) (k : list (list R)) (x2 : list R) : Prop :=
  length x2 = n /\
  forall j, (j < n)%nat -> cmpR x2 j = cmpR x1 j + h * rsum stages (fun s => BR_ co stages ix s * cmpR (nth s k []) j).

(** Two vectors differ by at most d in every component (max norm). *)
Definition near (n : nat) (x y : list R) (d : R) : Prop := forall j, (j < n)%nat -> Rabs (cmpR x j - cmpR y j) <= d.
(** A right-hand side, as the solvers call it: a total function of time and state that returns a vector of the same length. *)
Definition sized (n : nat) (f : R -> list R -> list R) : Prop := forall t x, length x = n -> length (f t x) = n.
Definition rhs_of {W : Type} (f : R -> list R -> list R) : W -> R -> list R -> Outcome (list R) := fun _ t x => Ret (f t x).
(** Lipschitz in the state, with constant L; Lipschitz in time and state. *)
Definition lipschitz_x (n : nat) (L : R) (f : R -> list R -> list R) : Prop :=
  forall t x y d, length x = n -> length y = n -> near n x y d -> near n (f t x) (f t y) (L * d).
Definition lipschitz (n : nat) (L : R) (f : R -> list R -> list R) : Prop :=
  forall t s x y d, length x = n -> length y = n -> near n x y d -> near n (f t x) (f s y) (L * (Rabs (t - s) + d)).
(** X solves x' = f(t, x) on [t0, t1]. *)
Definition solves (n : nat) (f : R -> list R -> list R) (X : R -> list R) (t0 t1 : R) : Prop :=
  forall t, t0 <= t <= t1 -> length (X t) = n /\ forall j, (j < n)%nat -> derivable_pt_lim (fun u => cmpR (X u) j) t (cmpR (f t (X t)) j).

(** How much the slope of stage s can differ, per unit of difference of the states: gain_s = L (1 + h sum_{i<s} |a_si| gain_i);
    the growth factor of a step is 1 + h * growth. *)
Fixpoint gains (co : coeffs RNum) (L h : R) (s : nat) : list R :=
  match s with O => [] | S m => let g := gains co L h m in g ++ [L * (1 + h * rsum m (fun i => Rabs (AR_ co m i) * nth i g 0))] end.
Definition growth (co : coeffs RNum) (stages ix : nat) (L h : R) : R :=
  rsum stages (fun s => Rabs (BR_ co stages ix s) * nth s (gains co L h stages) 0).
(** The weights of result row ix sum up to 1, up to delta. *)
Definition consistent (co : coeffs RNum) (stages ix : nat) (delta : R) : Prop := Rabs (rsum stages (fun s => BR_ co stages ix s) - 1) <= delta.

(** One doStep call of a fresh fixed step solver started at (t, x): the new state. *)
Definition one_step (f : R -> list R -> list R) (co : coeffs RNum) (n : nat) (h t : R) (x : list R) : Outcome (list R) :=
  r <- rk_steps (N:=RNum) no_events (rhs_of (W:=unit) f) co n h 1 (mkRk (N:=RNum) t x None out_empty tt) ;; Ret (rk_x (fst r)).
(** A client of the adaptive solver: doStep calls that all return normally, with the sizes of the accepted steps. *)
Inductive adaptive_run {W : Type} (f : W -> R -> list R -> Outcome (list R)) (c : erkcfg RNum) : rkst RNum W -> list R -> rkst RNum W -> Prop :=
| run_end s : adaptive_run f c s [] s
| run_step s fuel s1 posts a l s2 : erk_step (N:=RNum) no_events f c fuel s = (s1, posts, Some (AAccepted a)) ->
    adaptive_run f c s1 l s2 -> adaptive_run f c s (pa_h a :: l) s2.
Fixpoint total (l : list R) : R := match l with [] => 0 | a :: r => a + total r end.
