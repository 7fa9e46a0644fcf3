(** PropRk.v - properties of explicit Runge-Kutta steps (C29-C32). *)
From Coq Require Import List Arith ZArith QArith Qcanon Factorial.
From Verif Require Import Base VecModel VOps RkModel RkSpec RkFacts RkFacts2 RkFacts3 RkFacts4 RkFacts5 RkFacts6 RkFacts7.
Import ListNotations.
Local Open Scope nat_scope.

(** C29: for every coefficient table (with a sound shortcut index, if any), every right-hand side, state, step and every
    contents of the work space: the right-hand side is evaluated once per stage, in order, at the textbook arguments, and every result is the
    textbook result. *)
Theorem C29_step_formula : forall co stages n nx f x1 t1 h (o : output QcNum),
  wf_table co stages nx -> shortcut_ok co stages -> good_rhs (N:=QcNum) n f -> length x1 = n -> shaped o stages n nx ->
  exists o' evals, rk_compute (N:=QcNum) o co f x1 t1 h = Ret (o', evals) /\ shaped o' stages n nx /\
    textbook_stages co stages n f x1 t1 h evals (o_k o') /\
    (forall ix, ix < nx -> textbook_result co stages n ix x1 h (o_k o') (nth ix (o_x2 o') [])).
Proof. exact compute_all. Qed.
Print Assumptions C29_step_formula.

(** For any arithmetic (so also for floating point): a right-hand side that may throw never leads to undefined behaviour,
    and the step fails only if an evaluation failed. *)
Theorem C29_step_failure : forall (N : Num) (co : coeffs N) stages n nx f x1 t1 h,
  wf_table co stages nx -> safe_rhs n f -> length x1 = n -> forall o, shaped o stages n nx ->
  (exists o' evals, rk_compute o co f x1 t1 h = Ret (o', evals) /\ shaped o' stages n nx /\ length evals = stages) \/
  (rk_compute o co f x1 t1 h = Throw /\ exists t x, length x = n /\ f t x = Throw).
Proof. exact @compute_safe. Qed.
Print Assumptions C29_step_failure.

(** The built-in tables have the right shape and a sound shortcut. *)
Theorem C29_tables : wf_table tab_euler 1 1 /\ wf_table tab_rk4 4 1 /\ wf_table tab_dopri45 7 2 /\ wf_table tab_dopri56 8 2 /\ wf_table tab_dopri78 13 2 /\
  shortcut_ok tab_euler 1 /\ shortcut_ok tab_rk4 4 /\ shortcut_ok tab_dopri45 7 /\ shortcut_ok tab_dopri56 8 /\ shortcut_ok tab_dopri78 13.
Proof.
  exact (conj wf_euler (conj wf_rk4 (conj wf_dopri45 (conj wf_dopri56 (conj wf_dopri78
        (conj (sc_neg tab_euler 1 eq_refl) (conj (sc_neg tab_rk4 4 eq_refl) (conj sc_dopri45 (conj (sc_neg tab_dopri56 8 eq_refl) (sc_neg tab_dopri78 13 eq_refl)))))))))).
Qed.
Print Assumptions C29_tables.

(** A fixed step solver without events: after any number of doStep calls following setInitialState(t0, x0) the state has
    gone through that many textbook steps of size h_init, and the observers saw this step size, accepted, untruncated. *)
Theorem C29_fixed_step_history : forall (W : Type) (f : W -> Qc -> list Qc -> Outcome (list Qc)) (co : coeffs QcNum) stages n h,
  wf_table co stages 1 -> co_last co = (-1)%Z -> forall w, good_rhs (N:=QcNum) n (f w) ->
  forall t0 x0 s0 count, rk_w s0 = w -> length x0 = n ->
  exists s' posts traj, rk_steps (N:=QcNum) no_events f co n h count (rk_set (N:=QcNum) no_events t0 x0 s0) = Ret (s', posts) /\
    posts = repeat (mkPost (N:=QcNum) h true false false 0%Qc None 0%Z) count /\
    traj 0 = (t0, x0) /\ traj count = (rk_t s', rk_x s') /\ rk_t s' = (t0 + qn count * h)%Qc /\
    forall i, i < count -> textbook_step co stages n (f w) h (traj i) (traj (S i)).
Proof. exact @fixed_history. Qed.
Print Assumptions C29_fixed_step_history.

(** C30: in any arithmetic, with any right-hand side (throwing or not), taking the last stage argument as the result is
    indistinguishable from computing the repeated row. *)
Theorem C30_shortcut_same : forall (N : Num) (co : coeffs N) stages n nx ix f x1 t1 h o,
  length x1 = n -> 2 <= stages -> co_last co = Z.of_nat ix -> row_repeats co stages ix -> shaped o stages n nx ->
  visible (rk_compute o co f x1 t1 h) = visible (rk_compute o (no_shortcut co) f x1 t1 h).
Proof. exact @fsal_visible. Qed.
Print Assumptions C30_shortcut_same.

(** C31: order conditions over all rooted trees. *)
Theorem C31_order_euler : order_conditions tab_euler 1 0 1 /\ row_sums tab_euler 1.
Proof. exact (conj ord_euler rows_euler). Qed.
Print Assumptions C31_order_euler.
Theorem C31_order_rk4 : order_conditions tab_rk4 4 0 4 /\ row_sums tab_rk4 4.
Proof. exact (conj ord_rk4 rows_rk4). Qed.
Print Assumptions C31_order_rk4.
Theorem C31_order_dopri45 : order_conditions tab_dopri45 7 0 5 /\ order_conditions tab_dopri45 7 1 4 /\ row_sums tab_dopri45 7.
Proof. exact (conj ord_dopri45_hi (conj ord_dopri45_lo rows_dopri45)). Qed.
Print Assumptions C31_order_dopri45.
Theorem C31_order_dopri56 : order_conditions tab_dopri56 8 0 6 /\ order_conditions tab_dopri56 8 1 5 /\ row_sums tab_dopri56 8.
Proof. exact (conj ord_dopri56_hi (conj ord_dopri56_lo rows_dopri56)). Qed.
Print Assumptions C31_order_dopri56.
(** The published 8(7) coefficients are rounded: the conditions hold to 1e-17, the row sums to 1e-16. *)
Theorem C31_order_dopri78 :
  (forall t, order t <= 8 -> (Qcabs (weight tab_dopri78 13 0 t - 1 / qn (density t)) <= qc 1 100000000000000000)%Qc) /\
  (forall t, order t <= 7 -> (Qcabs (weight tab_dopri78 13 1 t - 1 / qn (density t)) <= qc 1 100000000000000000)%Qc) /\
  (forall s, s < 13 -> (Qcabs (qsum s (fun i => A_ tab_dopri78 s i) - C_ tab_dopri78 s) <= qc 1 10000000000000000)%Qc).
Proof. exact (conj ord_dopri78_hi (conj ord_dopri78_lo rows_dopri78)). Qed.
Print Assumptions C31_order_dopri78.

(** C32: a step of a method of order p on x' = M x, any matrix M: the terms up to h^p are those of the exponential
    series; the remaining ones are given by the weights of the chains.  (p = stages: nothing remains - Euler, RK4.) *)
Theorem C32_linear : forall co stages n nx M x1 t1 h o o' evals ix p,
  wf_table co stages nx -> shortcut_ok co stages -> length x1 = n -> shaped o stages n nx ->
  order_conditions co stages ix p -> p <= stages -> ix < nx -> rk_compute (N:=QcNum) o co (linear_rhs n M) x1 t1 h = Ret (o', evals) ->
  forall i, i < n -> cmp_ (nth ix (o_x2 o') []) i =
     (qsum (S p) (fun m => qpow h m / qn (fact m) * mpow n M m x1 i)
      + qsum (stages - p) (fun r => qpow h (S (p + r)) * weight co stages ix (tall (p + r)) * mpow n M (S (p + r)) x1 i))%Qc.
Proof. exact linear_any. Qed.
Print Assumptions C32_linear.
(** A method of order p integrates x' = polynomial in t of degree < p exactly. *)
Theorem C32_quadrature : forall co stages n nx deg a x1 t1 h o o' evals ix p,
  wf_table co stages nx -> shortcut_ok co stages -> length x1 = n -> shaped o stages n nx ->
  order_conditions co stages ix p -> row_sums co stages -> deg <= p -> ix < nx ->
  rk_compute (N:=QcNum) o co (poly_rhs n deg a t1) x1 t1 h = Ret (o', evals) ->
  forall i, i < n -> cmp_ (nth ix (o_x2 o') []) i = (cmp_ x1 i + qsum deg (fun m => a i m * (qpow h (S m) / qn (S m))))%Qc.
Proof. exact quad_any. Qed.
Print Assumptions C32_quadrature.
