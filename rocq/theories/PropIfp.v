(** PropIfp.v - the implicit alpha solver and Newton's method in rounded arithmetic (C87). *)
From Coq Require Import List Arith Bool ZArith Permutation Reals.
From Verif Require Import Base VecModel VOps MapModel NewtModel NewtSpec RkModel RkSpec StepSpec ExtModel ImpModel ImpSpec ConvSpec FpSpec ImcSpec IfpSpec IfpFacts4.
Import ListNotations.
Local Open Scope R_scope.

(** C87.  Newton's method, run in rounded arithmetic with any descent direction: if run reports convergence from an initial guess made of machine numbers,
    then the mapping, evaluated in the same arithmetic at the solution it returns, is within the absolute tolerance of zero in every component. *)
Theorem C87_newton : forall (rnd : R -> R) (S : Type) (dd : ddir (FNum rnd) S) (lit : ls_lit (FNum rnd)) (mt : nat) (g : vmapping (FNum rnd)) (limit : nat) (x : list R) (hard : bool) (p p' : perf (FNum rnd) (S:=S)) (log : list (event (FNum rnd))),
  rnd 0 = 0 -> idempotent rnd -> (l_eta lit : R) <= 1 -> machine rnd x -> nrun (plain_comps dd lit mt g) limit (pf_guess dd x hard p) = Ret (p', log, NConverged) ->
  machine rnd (p_x p') /\ exists f : list R, mapf g (p_x p') = Ret f /\ forall v, In v f -> Rabs v <= e_absTol (p_est p).
Proof. intros rnd S dd lit mt g limit x hard p p' log. exact (newton_rounded rnd dd lit mt g limit x hard p p' log). Qed.
Print Assumptions C87_newton.
(** C87.  One doStep of the implicit alpha solver in rounded arithmetic, with states of size at most B: the new state y satisfies the equation of the alpha method
    (for the positions, the velocities and the first order variables) up to the tolerance of Newton's method, a multiple of the error w of one rounding, and the error
    of the right-hand side times h. *)
Theorem C87_step : forall (rnd : R -> R) (u eta : R) (W P D : Type) (dd : vmapping (FNum rnd) -> ddir (FNum rnd) D) (lit : ls_lit (FNum rnd)) (mt limit : nat) (c : icfg (FNum rnd) W P) (g : R -> list R -> list R) (S B G Lt phi : R),
  rounds rnd u eta -> idempotent rnd -> 0 <= u -> 0 <= eta -> u + eta <= 1 -> (l_eta lit : R) <= 1 ->
  (forall w, computes_near (n_vars c) S B phi (ic_rhs c w) g) -> slopes_within (n_vars c) S B G Lt g -> positions_first (ic_nd c) (ic_nf c) g ->
  (forall o, ic_ord c = Some o -> Permutation (fst o) (seq 0 (ic_nd c + ic_nf c)) /\ Permutation (snd o) (seq 0 (ic_nd c + ic_nf c))) ->
  (forall pr, ic_pred c = Some pr -> forall h t x k q y q', pr h t x k q = Ret (y, q') -> machine rnd y) ->
  0 <= B -> 0 <= G -> 0 <= Lt -> 0 <= phi ->
  forall (s s' : ist (FNum rnd) W P (perf (FNum rnd) (S:=D))) (a : postarg (FNum rnd)),
  let n := n_vars c in let h := ic_h c : R in let al := em_alpha (i_map s) : R in let t := em_t (i_map s) : R in
  let x := em_x (i_map s) : list R in let y := em_x (i_map s') : list R in let w := u + eta in
  0 <= h -> 0 <= al <= 1 -> 2 * (1 + Rabs t + h) <= S -> length x = n -> machine rnd x -> bound n x B -> bound n y B -> 0 <= toleranceF s ->
  i_step no_events (plain_newton dd lit mt limit) c s = (s', IDone a) ->
  length y = n /\ machine rnd y /\ Rabs (em_t (i_map s') - (t + h)) <= w * (1 + Rabs t + h) /\
  near n y (map (fun j => cmpR x j + h * ((1 - al) * cmpR (g t x) j + al * cmpR (g (t + h) y) j)) (seq 0 n))
    (toleranceF s + 60 * (1 + B + G + phi) * (1 + h) * w + h * (phi + Lt * (w * (1 + Rabs t + h)))).
Proof. intros rnd u eta W P D dd lit mt limit c g S B G Lt phi. exact (one_step rnd u eta dd lit mt limit c g S B G Lt phi). Qed.
Print Assumptions C87_step.
(** C87.  A run of doStep calls that all return, whose states stay within B: it follows the solution X of x' = g(t, x) up to first order in the step size h,
    and what one step adds to the tolerance, divided by h. *)
Theorem C87_error : forall (rnd : R -> R) (u eta : R) (W P D : Type) (dd : vmapping (FNum rnd) -> ddir (FNum rnd) D) (lit : ls_lit (FNum rnd)) (mt limit : nat) (c : icfg (FNum rnd) W P) (g : R -> list R -> list R) (S B G Lt phi : R),
  rounds rnd u eta -> idempotent rnd -> 0 <= u -> 0 <= eta -> u + eta <= 1 -> (l_eta lit : R) <= 1 ->
  (forall w, computes_near (n_vars c) S B phi (ic_rhs c w) g) -> slopes_within (n_vars c) S B G Lt g -> positions_first (ic_nd c) (ic_nf c) g ->
  (forall o, ic_ord c = Some o -> Permutation (fst o) (seq 0 (ic_nd c + ic_nf c)) /\ Permutation (snd o) (seq 0 (ic_nd c + ic_nf c))) ->
  (forall pr, ic_pred c = Some pr -> forall h t x k q y q', pr h t x k q = Ret (y, q') -> machine rnd y) ->
  0 <= B -> 0 <= G -> 0 <= Lt -> 0 <= phi -> let n := n_vars c in let h := ic_h c : R in let w := u + eta in 0 <= h ->
  forall (X : R -> list R) (t0 T M : R) (count : nat) (x0 : list R) (soft : bool) (s s' : ist (FNum rnd) W P (perf (FNum rnd) (S:=D))),
  2 * (1 + Rabs t0 + T) <= S -> 0 <= M -> 0 < h -> INR count * h <= T -> 3 * INR count * w <= 1 -> 0 <= toleranceF s -> length x0 = n -> machine rnd x0 -> solves n g X t0 (t0 + T) ->
  i_steps no_events (plain_newton dd lit mt limit) c count (i_set (N:=FNum rnd) t0 x0 soft s) = Some s' ->
  (forall i si, (i <= count)%nat -> i_steps no_events (plain_newton dd lit mt limit) c i (i_set (N:=FNum rnd) t0 x0 soft s) = Some si -> bound n (em_x (i_map si)) B) ->
  let al := em_alpha (i_map s) : R in let eps := toleranceF s + step_noise B G Lt (1 + Rabs t0 + T) T h w phi in
  forall L d : R, 0 <= L -> lipschitz_x n L g -> slope_changes n g X t0 (t0 + T) M -> 0 <= al <= 1 -> 2 * (h * al * L) <= 1 -> 0 <= d -> near n x0 (X t0) d ->
  Rabs (em_t (i_map s') - (t0 + INR count * h)) <= 2 * INR count * w * (1 + Rabs t0 + T) /\
  near n (em_x (i_map s')) (X (t0 + INR count * h)) (exp (2 * L * T) * (d + 2 * T * (M * h + eps / h))).
Proof.
  intros rnd u eta W P D dd lit mt limit c g S B G Lt phi H1 H2 H3 H4 H5 H6 H7 H8 H9 H10 H11 H12 H13 H14 H15 n h w H16 X t0 T M count x0 soft s s' I1 I2 I3 I4 I5 I6 I7 I8 I9 I10 I11 al eps L d.
  exact (implicit_errorF rnd u eta dd lit mt limit c g S B G Lt phi H1 H2 H3 H4 H5 H6 H7 H8 H9 H10 H11 H12 H13 H14 H15 H16 X t0 T M count x0 soft s s' I1 I2 I3 I4 I5 I6 I7 I8 I9 I10 I11 L d).
Qed.
Print Assumptions C87_error.
(** C87.  With alpha = 1/2 up to second order. *)
Theorem C87_second_order : forall (rnd : R -> R) (u eta : R) (W P D : Type) (dd : vmapping (FNum rnd) -> ddir (FNum rnd) D) (lit : ls_lit (FNum rnd)) (mt limit : nat) (c : icfg (FNum rnd) W P) (g : R -> list R -> list R) (S B G Lt phi : R),
  rounds rnd u eta -> idempotent rnd -> 0 <= u -> 0 <= eta -> u + eta <= 1 -> (l_eta lit : R) <= 1 ->
  (forall w, computes_near (n_vars c) S B phi (ic_rhs c w) g) -> slopes_within (n_vars c) S B G Lt g -> positions_first (ic_nd c) (ic_nf c) g ->
  (forall o, ic_ord c = Some o -> Permutation (fst o) (seq 0 (ic_nd c + ic_nf c)) /\ Permutation (snd o) (seq 0 (ic_nd c + ic_nf c))) ->
  (forall pr, ic_pred c = Some pr -> forall h t x k q y q', pr h t x k q = Ret (y, q') -> machine rnd y) ->
  0 <= B -> 0 <= G -> 0 <= Lt -> 0 <= phi -> let n := n_vars c in let h := ic_h c : R in let w := u + eta in 0 <= h ->
  forall (X : R -> list R) (t0 T M : R) (count : nat) (x0 : list R) (soft : bool) (s s' : ist (FNum rnd) W P (perf (FNum rnd) (S:=D))),
  2 * (1 + Rabs t0 + T) <= S -> 0 <= M -> 0 < h -> INR count * h <= T -> 3 * INR count * w <= 1 -> 0 <= toleranceF s -> length x0 = n -> machine rnd x0 -> solves n g X t0 (t0 + T) ->
  i_steps no_events (plain_newton dd lit mt limit) c count (i_set (N:=FNum rnd) t0 x0 soft s) = Some s' ->
  (forall i si, (i <= count)%nat -> i_steps no_events (plain_newton dd lit mt limit) c i (i_set (N:=FNum rnd) t0 x0 soft s) = Some si -> bound n (em_x (i_map si)) B) ->
  let eps := toleranceF s + step_noise B G Lt (1 + Rabs t0 + T) T h w phi in
  forall (L d : R) (A : R -> nat -> R), 0 <= L -> lipschitz_x n L g -> curvature_changes n g X A t0 (t0 + T) M -> em_alpha (i_map s) = / 2 -> h * L <= 1 -> 0 <= d -> near n x0 (X t0) d ->
  Rabs (em_t (i_map s') - (t0 + INR count * h)) <= 2 * INR count * w * (1 + Rabs t0 + T) /\
  near n (em_x (i_map s')) (X (t0 + INR count * h)) (exp (2 * L * T) * (d + 2 * T * (M * h ^ 2 + eps / h))).
Proof.
  intros rnd u eta W P D dd lit mt limit c g S B G Lt phi H1 H2 H3 H4 H5 H6 H7 H8 H9 H10 H11 H12 H13 H14 H15 n h w H16 X t0 T M count x0 soft s s' I1 I2 I3 I4 I5 I6 I7 I8 I9 I10 I11 eps L d A.
  exact (trapezoid_errorF rnd u eta dd lit mt limit c g S B G Lt phi H1 H2 H3 H4 H5 H6 H7 H8 H9 H10 H11 H12 H13 H14 H15 H16 X t0 T M count x0 soft s s' I1 I2 I3 I4 I5 I6 I7 I8 I9 I10 I11 L d A).
Qed.
Print Assumptions C87_second_order.
(** C87.  With alpha = 1, on equations whose solutions do not move apart, however stiff: no condition on the step size. *)
Theorem C87_stiff : forall (rnd : R -> R) (u eta : R) (W P D : Type) (dd : vmapping (FNum rnd) -> ddir (FNum rnd) D) (lit : ls_lit (FNum rnd)) (mt limit : nat) (c : icfg (FNum rnd) W P) (g : R -> list R -> list R) (S B G Lt phi : R),
  rounds rnd u eta -> idempotent rnd -> 0 <= u -> 0 <= eta -> u + eta <= 1 -> (l_eta lit : R) <= 1 ->
  (forall w, computes_near (n_vars c) S B phi (ic_rhs c w) g) -> slopes_within (n_vars c) S B G Lt g -> positions_first (ic_nd c) (ic_nf c) g ->
  (forall o, ic_ord c = Some o -> Permutation (fst o) (seq 0 (ic_nd c + ic_nf c)) /\ Permutation (snd o) (seq 0 (ic_nd c + ic_nf c))) ->
  (forall pr, ic_pred c = Some pr -> forall h t x k q y q', pr h t x k q = Ret (y, q') -> machine rnd y) ->
  0 <= B -> 0 <= G -> 0 <= Lt -> 0 <= phi -> let n := n_vars c in let h := ic_h c : R in let w := u + eta in 0 <= h ->
  forall (X : R -> list R) (t0 T M : R) (count : nat) (x0 : list R) (soft : bool) (s s' : ist (FNum rnd) W P (perf (FNum rnd) (S:=D))),
  2 * (1 + Rabs t0 + T) <= S -> 0 <= M -> 0 < h -> INR count * h <= T -> 3 * INR count * w <= 1 -> 0 <= toleranceF s -> length x0 = n -> machine rnd x0 -> solves n g X t0 (t0 + T) ->
  i_steps no_events (plain_newton dd lit mt limit) c count (i_set (N:=FNum rnd) t0 x0 soft s) = Some s' ->
  (forall i si, (i <= count)%nat -> i_steps no_events (plain_newton dd lit mt limit) c i (i_set (N:=FNum rnd) t0 x0 soft s) = Some si -> bound n (em_x (i_map si)) B) ->
  let eps := toleranceF s + step_noise B G Lt (1 + Rabs t0 + T) T h w phi in
  one_sided n 0 g -> slope_changes n g X t0 (t0 + T) M -> em_alpha (i_map s) = 1 ->
  Rabs (em_t (i_map s') - (t0 + INR count * h)) <= 2 * INR count * w * (1 + Rabs t0 + T) /\
  dist2 n (em_x (i_map s')) (X (t0 + INR count * h)) <= dist2 n x0 (X t0) + T * (sqrt (INR n) * (M * h + eps / h)).
Proof.
  intros rnd u eta W P D dd lit mt limit c g S B G Lt phi H1 H2 H3 H4 H5 H6 H7 H8 H9 H10 H11 H12 H13 H14 H15 n h w H16 X t0 T M count x0 soft s s' I1 I2 I3 I4 I5 I6 I7 I8 I9 I10 I11.
  exact (stiff_errorF rnd u eta dd lit mt limit c g S B G Lt phi H1 H2 H3 H4 H5 H6 H7 H8 H9 H10 H11 H12 H13 H14 H15 H16 X t0 T M count x0 soft s s' I1 I2 I3 I4 I5 I6 I7 I8 I9 I10 I11).
Qed.
Print Assumptions C87_stiff.
