(** PropImc.v - convergence and contractivity of the implicit alpha solver (C78). *)
From Coq Require Import List Arith Bool ZArith QArith Qcanon Permutation Reals.
From Verif Require Import Base VecModel VOps MapModel NewtModel NewtSpec RkModel RkSpec StepSpec ExtModel ImpModel ImpSpec ConvSpec ImcSpec ImcFacts3.
Import ListNotations.
Local Open Scope R_scope.

(** C78.  Every run of doStep calls that all return, with Newton's method with any descent direction, predictor and reordering by permutations, on a
    right-hand side that computes a Lipschitz function g: the states follow the solution X of x' = g(t, x) up to first order in the step size, and the
    tolerance of Newton's method divided by the step size. *)
Theorem C78_error : forall (W P D : Type) (dd : vmapping QcNum -> ddir QcNum D) (lit : ls_lit QcNum) (mt limit : nat) (c : icfg QcNum W P) (g : R -> list R -> list R) (X : R -> list R) (T M : R),
  ls_order lit -> (forall w, computes_rhs (n_vars c) (ic_rhs c w) g) -> positions_first (ic_nd c) (ic_nf c) g ->
  (forall o, ic_ord c = Some o -> Permutation (fst o) (seq 0 (ic_nd c + ic_nf c)) /\ Permutation (snd o) (seq 0 (ic_nd c + ic_nf c))) ->
  let n := n_vars c in let h := q2r (ic_h c) in
  forall (L d : R) (count : nat) (t0 : Qc) (x0 : list Qc) (soft : bool) (s s' : ist QcNum W P (perf QcNum (S:=D))),
  let al := q2r (em_alpha (i_map s)) in let eps := tolerance s in
  0 <= L -> lipschitz_x n L g -> 0 <= M -> solves n g X (q2r t0) (q2r t0 + T) -> slope_changes n g X (q2r t0) (q2r t0 + T) M ->
  0 < h -> INR count * h <= T -> 0 <= al <= 1 -> 2 * (h * al * L) <= 1 -> 0 <= eps ->
  length x0 = n -> 0 <= d -> near n (toR x0) (X (q2r t0)) d -> i_steps (N:=QcNum) no_events (plain_newton (N:=QcNum) dd lit mt limit) c count (i_set (N:=QcNum) t0 x0 soft s) = Some s' ->
  q2r (em_t (i_map s')) = q2r t0 + INR count * h /\
  near n (toR (em_x (i_map s'))) (X (q2r (em_t (i_map s')))) (exp (2 * L * T) * (d + 2 * T * (M * h + eps / h))).
Proof. intros W P D dd lit mt limit c g X T M H1 H2 H3 H4. exact (implicit_error dd lit mt limit c g X T M H1 H2 H3 H4). Qed.
Print Assumptions C78_error.
(** C78.  With alpha = 1/2 it is of second order. *)
Theorem C78_second_order : forall (W P D : Type) (dd : vmapping QcNum -> ddir QcNum D) (lit : ls_lit QcNum) (mt limit : nat) (c : icfg QcNum W P) (g : R -> list R -> list R) (X : R -> list R) (T M : R),
  ls_order lit -> (forall w, computes_rhs (n_vars c) (ic_rhs c w) g) -> positions_first (ic_nd c) (ic_nf c) g ->
  (forall o, ic_ord c = Some o -> Permutation (fst o) (seq 0 (ic_nd c + ic_nf c)) /\ Permutation (snd o) (seq 0 (ic_nd c + ic_nf c))) ->
  let n := n_vars c in let h := q2r (ic_h c) in
  forall (L d : R) (A : R -> nat -> R) (count : nat) (t0 : Qc) (x0 : list Qc) (soft : bool) (s s' : ist QcNum W P (perf QcNum (S:=D))),
  let eps := tolerance s in
  0 <= L -> lipschitz_x n L g -> 0 <= M -> solves n g X (q2r t0) (q2r t0 + T) -> curvature_changes n g X A (q2r t0) (q2r t0 + T) M ->
  0 < h -> INR count * h <= T -> em_alpha (i_map s) = (1 / qn 2)%Qc -> h * L <= 1 -> 0 <= eps ->
  length x0 = n -> 0 <= d -> near n (toR x0) (X (q2r t0)) d -> i_steps (N:=QcNum) no_events (plain_newton (N:=QcNum) dd lit mt limit) c count (i_set (N:=QcNum) t0 x0 soft s) = Some s' ->
  q2r (em_t (i_map s')) = q2r t0 + INR count * h /\
  near n (toR (em_x (i_map s'))) (X (q2r (em_t (i_map s')))) (exp (2 * L * T) * (d + 2 * T * (M * h ^ 2 + eps / h))).
Proof. intros W P D dd lit mt limit c g X T M H1 H2 H3 H4. exact (trapezoid_error dd lit mt limit c g X T M H1 H2 H3 H4). Qed.
Print Assumptions C78_second_order.
(** C78.  With alpha = 1, on equations whose solutions do not move apart, however stiff: no condition on the step size, and no Lipschitz constant in the bound. *)
Theorem C78_stiff : forall (W P D : Type) (dd : vmapping QcNum -> ddir QcNum D) (lit : ls_lit QcNum) (mt limit : nat) (c : icfg QcNum W P) (g : R -> list R -> list R) (X : R -> list R) (T M : R),
  ls_order lit -> (forall w, computes_rhs (n_vars c) (ic_rhs c w) g) -> positions_first (ic_nd c) (ic_nf c) g ->
  (forall o, ic_ord c = Some o -> Permutation (fst o) (seq 0 (ic_nd c + ic_nf c)) /\ Permutation (snd o) (seq 0 (ic_nd c + ic_nf c))) ->
  let n := n_vars c in let h := q2r (ic_h c) in
  forall (count : nat) (t0 : Qc) (x0 : list Qc) (soft : bool) (s s' : ist QcNum W P (perf QcNum (S:=D))),
  let eps := tolerance s in
  one_sided n 0 g -> 0 <= M -> solves n g X (q2r t0) (q2r t0 + T) -> slope_changes n g X (q2r t0) (q2r t0 + T) M ->
  0 < h -> INR count * h <= T -> em_alpha (i_map s) = 1%Qc -> 0 <= eps ->
  length x0 = n -> i_steps (N:=QcNum) no_events (plain_newton (N:=QcNum) dd lit mt limit) c count (i_set (N:=QcNum) t0 x0 soft s) = Some s' ->
  q2r (em_t (i_map s')) = q2r t0 + INR count * h /\
  dist2 n (toR (em_x (i_map s'))) (X (q2r (em_t (i_map s')))) <= dist2 n (toR x0) (X (q2r t0)) + T * (sqrt (INR n) * (M * h + eps / h)).
Proof. intros W P D dd lit mt limit c g X T M H1 H2 H3 H4. exact (stiff_error dd lit mt limit c g X T M H1 H2 H3 H4). Qed.
Print Assumptions C78_stiff.
(** C78.  On such equations the states of two runs approach each other at least as fast as the equation promises, for every step size. *)
Theorem C78_contraction : forall (W P D : Type) (dd : vmapping QcNum -> ddir QcNum D) (lit : ls_lit QcNum) (mt limit : nat) (c : icfg QcNum W P) (g : R -> list R -> list R),
  ls_order lit -> (forall w, computes_rhs (n_vars c) (ic_rhs c w) g) -> positions_first (ic_nd c) (ic_nf c) g ->
  (forall o, ic_ord c = Some o -> Permutation (fst o) (seq 0 (ic_nd c + ic_nf c)) /\ Permutation (snd o) (seq 0 (ic_nd c + ic_nf c))) ->
  let n := n_vars c in let h := q2r (ic_h c) in
  forall (nu : R) (count : nat) (t0 : Qc) (x0 y0 : list Qc) (soft soft' : bool) (s s' r r' : ist QcNum W P (perf QcNum (S:=D))),
  one_sided n nu g -> nu <= 0 -> 0 <= h -> em_alpha (i_map s) = 1%Qc -> em_alpha (i_map r) = 1%Qc -> 0 <= tolerance s -> 0 <= tolerance r ->
  length x0 = n -> length y0 = n -> i_steps (N:=QcNum) no_events (plain_newton (N:=QcNum) dd lit mt limit) c count (i_set (N:=QcNum) t0 x0 soft s) = Some s' ->
  i_steps (N:=QcNum) no_events (plain_newton (N:=QcNum) dd lit mt limit) c count (i_set (N:=QcNum) t0 y0 soft' r) = Some r' ->
  dist2 n (toR (em_x (i_map s'))) (toR (em_x (i_map r'))) <= dist2 n (toR x0) (toR y0) / (1 - h * nu) ^ count + INR count * (sqrt (INR n) * (tolerance s + tolerance r)).
Proof. intros W P D dd lit mt limit c g H1 H2 H3 H4. exact (two_implicit_runs dd lit mt limit c g H1 H2 H3 H4). Qed.
Print Assumptions C78_contraction.
