(** PropIfp2.v - the implicit alpha solver in rounded arithmetic, on right-hand sides that grow at most linearly: nothing is assumed of the computed states (C87). *)
From Coq Require Import List Arith Bool ZArith Permutation Reals.
From Verif Require Import Base VecModel VOps MapModel NewtModel NewtSpec RkModel RkSpec StepSpec ExtModel ImpModel ImpSpec ConvSpec FpSpec ImcSpec IfpSpec IfpFacts6.
Import ListNotations.
Local Open Scope R_scope.

(** C87.  The right-hand side and its error grow at most linearly with the size of the state.  Let E be the error bound computed for states of size B.  If the solution X
    stays within B - E, then every run of doStep calls that all return follows X up to E: that the computed states stay within B is a consequence. *)
Theorem C87_follows : forall (rnd : R -> R) (u eta : R) (W P D : Type) (dd : vmapping (FNum rnd) -> ddir (FNum rnd) D) (lit : ls_lit (FNum rnd)) (mt limit : nat) (c : icfg (FNum rnd) W P) (g : R -> list R -> list R) (S G Lt phi : R),
  rounds rnd u eta -> idempotent rnd -> 0 <= u -> 0 <= eta -> u + eta <= 1 -> (l_eta lit : R) <= 1 ->
  (forall w b, 0 <= b -> computes_near (n_vars c) S b (phi * (1 + b)) (ic_rhs c w) g) -> (forall b, 0 <= b -> slopes_within (n_vars c) S b (G * (1 + b)) Lt g) -> positions_first (ic_nd c) (ic_nf c) g ->
  (forall o, ic_ord c = Some o -> Permutation (fst o) (seq 0 (ic_nd c + ic_nf c)) /\ Permutation (snd o) (seq 0 (ic_nd c + ic_nf c))) ->
  (forall pr, ic_pred c = Some pr -> forall h t x k q y q', pr h t x k q = Ret (y, q') -> machine rnd y) ->
  0 <= G -> 0 <= Lt -> 0 <= phi -> let n := n_vars c in let h := ic_h c : R in let w := u + eta in
  forall (X : R -> list R) (t0 T M B : R) (count : nat) (x0 : list R) (soft : bool) (s s' : ist (FNum rnd) W P (perf (FNum rnd) (S:=D))),
  2 * (1 + Rabs t0 + T) <= S -> 0 <= M -> 0 < h -> INR count * h <= T -> 3 * INR count * w <= 1 -> 0 <= toleranceF s -> length x0 = n -> machine rnd x0 -> solves n g X t0 (t0 + T) -> 0 <= B ->
  i_steps no_events (plain_newton dd lit mt limit) c count (i_set (N:=FNum rnd) t0 x0 soft s) = Some s' ->
  let eps := toleranceF s + step_noise B (G * (1 + B)) Lt (1 + Rabs t0 + T) T h w (phi * (1 + B)) in
  forall L d : R, 0 <= L -> lipschitz_x n L g -> slope_changes n g X t0 (t0 + T) M -> 0 <= em_alpha (i_map s) <= 1 -> 2 * (h * em_alpha (i_map s) * L) <= 1 -> 0 <= d -> near n x0 (X t0) d ->
  let E := exp (2 * L * T) * (d + 2 * T * (M * h + eps / h)) in
  2 * (60 * (1 + G + phi) * (1 + h) * w + h * phi) < 1 ->
  (forall t, t0 <= t <= t0 + T -> bound n (X t) (B - E)) ->
  Rabs (em_t (i_map s') - (t0 + INR count * h)) <= 2 * INR count * w * (1 + Rabs t0 + T) /\ near n (em_x (i_map s')) (X (t0 + INR count * h)) E.
Proof.
  intros rnd u eta W P D dd lit mt limit c g S G Lt phi H1 H2 H3 H4 H5 H6 H7 H8 H9 H10 H11 H12 H13 H14 n h w X t0 T M B count x0 soft s s' I1 I2 I3 I4 I5 I6 I7 I8 I9 I10 I11 eps L d.
  exact (implicit_follows rnd u eta dd lit mt limit c g S G Lt phi H1 H2 H3 H4 H5 H6 H7 H8 H9 H10 H11 H12 H13 H14 X t0 T M B count x0 soft s s' I1 I2 I3 I4 I5 I6 I7 I8 I9 I10 I11 L d).
Qed.
Print Assumptions C87_follows.
(** C87.  The same with alpha = 1/2, up to second order. *)
Theorem C87_follows_second_order : forall (rnd : R -> R) (u eta : R) (W P D : Type) (dd : vmapping (FNum rnd) -> ddir (FNum rnd) D) (lit : ls_lit (FNum rnd)) (mt limit : nat) (c : icfg (FNum rnd) W P) (g : R -> list R -> list R) (S G Lt phi : R),
  rounds rnd u eta -> idempotent rnd -> 0 <= u -> 0 <= eta -> u + eta <= 1 -> (l_eta lit : R) <= 1 ->
  (forall w b, 0 <= b -> computes_near (n_vars c) S b (phi * (1 + b)) (ic_rhs c w) g) -> (forall b, 0 <= b -> slopes_within (n_vars c) S b (G * (1 + b)) Lt g) -> positions_first (ic_nd c) (ic_nf c) g ->
  (forall o, ic_ord c = Some o -> Permutation (fst o) (seq 0 (ic_nd c + ic_nf c)) /\ Permutation (snd o) (seq 0 (ic_nd c + ic_nf c))) ->
  (forall pr, ic_pred c = Some pr -> forall h t x k q y q', pr h t x k q = Ret (y, q') -> machine rnd y) ->
  0 <= G -> 0 <= Lt -> 0 <= phi -> let n := n_vars c in let h := ic_h c : R in let w := u + eta in
  forall (X : R -> list R) (t0 T M B : R) (count : nat) (x0 : list R) (soft : bool) (s s' : ist (FNum rnd) W P (perf (FNum rnd) (S:=D))),
  2 * (1 + Rabs t0 + T) <= S -> 0 <= M -> 0 < h -> INR count * h <= T -> 3 * INR count * w <= 1 -> 0 <= toleranceF s -> length x0 = n -> machine rnd x0 -> solves n g X t0 (t0 + T) -> 0 <= B ->
  i_steps no_events (plain_newton dd lit mt limit) c count (i_set (N:=FNum rnd) t0 x0 soft s) = Some s' ->
  let eps := toleranceF s + step_noise B (G * (1 + B)) Lt (1 + Rabs t0 + T) T h w (phi * (1 + B)) in
  forall (L d : R) (A : R -> nat -> R), 0 <= L -> lipschitz_x n L g -> curvature_changes n g X A t0 (t0 + T) M -> em_alpha (i_map s) = / 2 -> h * L <= 1 -> 0 <= d -> near n x0 (X t0) d ->
  let E := exp (2 * L * T) * (d + 2 * T * (M * h ^ 2 + eps / h)) in
  2 * (60 * (1 + G + phi) * (1 + h) * w + h * phi) < 1 ->
  (forall t, t0 <= t <= t0 + T -> bound n (X t) (B - E)) ->
  Rabs (em_t (i_map s') - (t0 + INR count * h)) <= 2 * INR count * w * (1 + Rabs t0 + T) /\ near n (em_x (i_map s')) (X (t0 + INR count * h)) E.
Proof.
  intros rnd u eta W P D dd lit mt limit c g S G Lt phi H1 H2 H3 H4 H5 H6 H7 H8 H9 H10 H11 H12 H13 H14 n h w X t0 T M B count x0 soft s s' I1 I2 I3 I4 I5 I6 I7 I8 I9 I10 I11 eps L d A.
  exact (trapezoid_follows rnd u eta dd lit mt limit c g S G Lt phi H1 H2 H3 H4 H5 H6 H7 H8 H9 H10 H11 H12 H13 H14 X t0 T M B count x0 soft s s' I1 I2 I3 I4 I5 I6 I7 I8 I9 I10 I11 L d A).
Qed.
Print Assumptions C87_follows_second_order.
(** C87.  The same with alpha = 1 on equations whose solutions do not move apart, however stiff. *)
Theorem C87_follows_stiff : forall (rnd : R -> R) (u eta : R) (W P D : Type) (dd : vmapping (FNum rnd) -> ddir (FNum rnd) D) (lit : ls_lit (FNum rnd)) (mt limit : nat) (c : icfg (FNum rnd) W P) (g : R -> list R -> list R) (S G Lt phi : R),
  rounds rnd u eta -> idempotent rnd -> 0 <= u -> 0 <= eta -> u + eta <= 1 -> (l_eta lit : R) <= 1 ->
  (forall w b, 0 <= b -> computes_near (n_vars c) S b (phi * (1 + b)) (ic_rhs c w) g) -> (forall b, 0 <= b -> slopes_within (n_vars c) S b (G * (1 + b)) Lt g) -> positions_first (ic_nd c) (ic_nf c) g ->
  (forall o, ic_ord c = Some o -> Permutation (fst o) (seq 0 (ic_nd c + ic_nf c)) /\ Permutation (snd o) (seq 0 (ic_nd c + ic_nf c))) ->
  (forall pr, ic_pred c = Some pr -> forall h t x k q y q', pr h t x k q = Ret (y, q') -> machine rnd y) ->
  0 <= G -> 0 <= Lt -> 0 <= phi -> let n := n_vars c in let h := ic_h c : R in let w := u + eta in
  forall (X : R -> list R) (t0 T M B : R) (count : nat) (x0 : list R) (soft : bool) (s s' : ist (FNum rnd) W P (perf (FNum rnd) (S:=D))),
  2 * (1 + Rabs t0 + T) <= S -> 0 <= M -> 0 < h -> INR count * h <= T -> 3 * INR count * w <= 1 -> 0 <= toleranceF s -> length x0 = n -> machine rnd x0 -> solves n g X t0 (t0 + T) -> 0 <= B ->
  i_steps no_events (plain_newton dd lit mt limit) c count (i_set (N:=FNum rnd) t0 x0 soft s) = Some s' ->
  let eps := toleranceF s + step_noise B (G * (1 + B)) Lt (1 + Rabs t0 + T) T h w (phi * (1 + B)) in
  one_sided n 0 g -> slope_changes n g X t0 (t0 + T) M -> em_alpha (i_map s) = 1 ->
  let E := dist2 n x0 (X t0) + T * (sqrt (INR n) * (M * h + eps / h)) in
  sqrt (INR n) * (60 * (1 + G + phi) * (1 + h) * w + h * phi) < 1 ->
  (forall t, t0 <= t <= t0 + T -> bound n (X t) (B - E)) ->
  Rabs (em_t (i_map s') - (t0 + INR count * h)) <= 2 * INR count * w * (1 + Rabs t0 + T) /\ dist2 n (em_x (i_map s')) (X (t0 + INR count * h)) <= E.
Proof.
  intros rnd u eta W P D dd lit mt limit c g S G Lt phi H1 H2 H3 H4 H5 H6 H7 H8 H9 H10 H11 H12 H13 H14 n h w X t0 T M B count x0 soft s s' I1 I2 I3 I4 I5 I6 I7 I8 I9 I10 I11 eps .
  exact (stiff_follows rnd u eta dd lit mt limit c g S G Lt phi H1 H2 H3 H4 H5 H6 H7 H8 H9 H10 H11 H12 H13 H14 X t0 T M B count x0 soft s s' I1 I2 I3 I4 I5 I6 I7 I8 I9 I10 I11 ).
Qed.
Print Assumptions C87_follows_stiff.
