(** PropRos.v - C42, C43, C44, C45, C60: the Rosenbrock solvers. *)
From Coq Require Import List Arith Bool ZArith QArith Qcanon.
From Verif Require Import Base VecModel VOps SMap SpModel SpSpec LUSpec LUModel RkModel RkSpec StepModel ImpSpec RosModel RosSpec OrdSpec OrdFacts2 RosFacts4 RosFacts5 RosFacts6 RosFacts7.
Import ListNotations.
Local Open Scope nat_scope.

(** C42.  After any history of initialisations and solves, linSolve with the step last requested solves (I - hd*J) x = b for the Jacobian of the whole system. *)
Theorem C42_solve : forall (l : list rcall) (hd : Qc) (b : list Qc), proper l -> requested l = Some hd -> hd <> 0%Qc -> solvable (ros_hist l) hd ->
  length b = ro_n (ros_hist l) -> 0 < ro_m (ros_hist l) ->
  exists (r' : ros) (x : list Qc), ros_linSolve b hd (ros_hist l) = Ret (r', x) /\ length x = ro_n (ros_hist l) /\
    solves (ro_n (ros_hist l)) (shifted hd (jac (ros_hist l))) (vfun x) (vfun b).
Proof. exact hist_solve. Qed.
Print Assumptions C42_solve.
(** C42.  There is one solution only. *)
Theorem C42_unique : forall (l : list rcall) (hd : Qc) (x y b : nat -> Qc), proper l ->
  leading_nonsingular (ro_m (ros_hist l)) (wmat hd (J1_ (ros_hist l)) (J2_ (ros_hist l))) ->
  solves (ro_n (ros_hist l)) (shifted hd (jac (ros_hist l))) x b -> solves (ro_n (ros_hist l)) (shifted hd (jac (ros_hist l))) y b ->
  forall i, i < ro_n (ros_hist l) -> x i = y i.
Proof. exact hist_unique. Qed.
Print Assumptions C42_unique.
(** C42.  The condition on the fill-in is necessary. *)
Theorem C42_solve_iff : forall (l : list rcall) (hd : Qc), proper l -> requested l = Some hd -> hd <> 0%Qc -> 0 < ro_m (ros_hist l) ->
  leading_nonsingular (ro_m (ros_hist l)) (wmat hd (J1_ (ros_hist l)) (J2_ (ros_hist l))) ->
  (fill_covered (w_stencil (ro_m (ros_hist l)) (J1_ (ros_hist l)) (J2_ (ros_hist l))) (wmat hd (J1_ (ros_hist l)) (J2_ (ros_hist l))) (ro_m (ros_hist l)) <->
   forall b : list Qc, length b = ro_n (ros_hist l) -> exists (r' : ros) (x : list Qc), ros_linSolve b hd (ros_hist l) = Ret (r', x) /\ length x = ro_n (ros_hist l) /\
    solves (ro_n (ros_hist l)) (shifted hd (jac (ros_hist l))) (vfun x) (vfun b)).
Proof. exact hist_solve_iff. Qed.
Print Assumptions C42_solve_iff.
(** C42.  A condition on the pattern of the Jacobian that is sufficient for any step (it holds for full, banded and lower triangular patterns, C07). *)
Theorem C42_pattern : forall (m : nat) (hd : Qc) (J1 J2 : nat -> nat -> Qc), stencil_covers (w_stencil m J1 J2) m -> fill_covered (w_stencil m J1 J2) (wmat hd J1 J2) m.
Proof. exact pattern_fill. Qed.
Print Assumptions C42_pattern.
(** C42.  mult multiplies by the same Jacobian. *)
Theorem C42_mult : forall (l : list rcall) (dst x : list Qc), proper l -> length dst = ro_n (ros_hist l) -> length x = ro_n (ros_hist l) ->
  exists y : list Qc, ros_mult dst x (ros_hist l) = Ret y /\ length y = ro_n (ros_hist l) /\
    forall i, i < ro_n (ros_hist l) -> cmp_ y i = matvec (ro_n (ros_hist l)) (jac (ros_hist l)) x i.
Proof. exact hist_mult. Qed.
Print Assumptions C42_mult.

(** C43.  The Jacobian is the one of the last hard initialisation: difference quotients, zero in the columns of the last n2 variables. *)
Theorem C43_jacobian : forall (l : list rcall) (n2 n1 : nat) (f : Qc -> list Qc -> Outcome (list Qc)) (t : Qc) (x0 f0 : list Qc) (hd : Qc),
  proper l -> last_hard l = Some (RInit true n2 n1 f t x0 f0 hd) ->
  ro_n2 (ros_hist l) = n2 /\ ro_n1 (ros_hist l) = n1 /\
  forall i, i < n2 + n1 ->
    (forall j, j < n1 -> J1_ (ros_hist l) i j = difference f t x0 f0 (n2 + i) (n2 + j)) /\
    (forall j, n1 <= j -> J1_ (ros_hist l) i j = 0%Qc) /\
    (forall j, j < n2 -> J2_ (ros_hist l) i j = difference f t x0 f0 (n2 + i) j).
Proof. exact hist_jac. Qed.
Print Assumptions C43_jacobian.
(** C43.  It has all the difference quotients exactly if those for the last n2 variables are zero; always so if n2 = 0. *)
Theorem C43_complete_iff : forall (l : list rcall) (n2 n1 : nat) (f : Qc -> list Qc -> Outcome (list Qc)) (t : Qc) (x0 f0 : list Qc) (hd : Qc),
  proper l -> last_hard l = Some (RInit true n2 n1 f t x0 f0 hd) ->
  ((forall i k, n2 <= i < 2 * n2 + n1 -> k < 2 * n2 + n1 -> jac (ros_hist l) i k = difference f t x0 f0 i k) <->
   (forall i k, n2 <= i < 2 * n2 + n1 -> n2 + n1 <= k < 2 * n2 + n1 -> difference f t x0 f0 i k = 0%Qc)).
Proof. exact hist_jac_iff. Qed.
Print Assumptions C43_complete_iff.
(** C43.  For a linear first order system it is the matrix of the system. *)
Theorem C43_linear : forall (l : list rcall) (n1 : nat) (A : nat -> nat -> Qc) (g : Qc -> nat -> Qc) (f : Qc -> list Qc -> Outcome (list Qc)) (t : Qc) (x0 f0 : list Qc) (hd : Qc),
  proper l -> last_hard l = Some (RInit true 0 n1 f t x0 f0 hd) -> ImpSpec.linear_rhs n1 A g f -> f t x0 = Ret f0 -> length x0 = n1 ->
  forall i k, i < n1 -> k < n1 -> jac (ros_hist l) i k = A i k.
Proof. exact hist_jac_linear. Qed.
Print Assumptions C43_linear.

(** C44.  linSolve gives what it would give with the cache emptied and the decomposition of the requested step computed afresh. *)
Theorem C44_transparent : forall (l : list rcall) (hd : Qc) (x : list Qc) (h : Qc), proper l -> requested l = Some hd -> hd <> 0%Qc ->
  solution (ros_linSolve x h (ros_hist l)) = solution (ros_linSolve x h (fst (ros_update hd (uncached (ros_hist l))))).
Proof. exact hist_transparent. Qed.
Print Assumptions C44_transparent.
(** C44.  Histories with the same last hard initialisation and the same requested step are indistinguishable. *)
Theorem C44_history : forall (l l' : list rcall) (n2 n1 : nat) (f : Qc -> list Qc -> Outcome (list Qc)) (t : Qc) (x0 f0 : list Qc) (h1 h2 hd : Qc) (x : list Qc) (h : Qc),
  proper l -> proper l' -> last_hard l = Some (RInit true n2 n1 f t x0 f0 h1) -> last_hard l' = Some (RInit true n2 n1 f t x0 f0 h2) ->
  requested l = Some hd -> requested l' = Some hd -> hd <> 0%Qc ->
  solution (ros_linSolve x h (ros_hist l)) = solution (ros_linSolve x h (ros_hist l')).
Proof. exact hist_independent. Qed.
Print Assumptions C44_history.
Theorem C44_bounded : forall l : list rcall, proper l -> length (ro_cache (ros_hist l)) <= 100.
Proof. exact hist_cache. Qed.
Print Assumptions C44_bounded.
(** C44.  initStep does not fail. *)
Theorem C44_initialises : forall (l : list rcall) (c : rcall), proper l -> call_ok c -> match c with
  | RInit hard n2 n1 f t x0 f0 hd => snd (ros_init hard n2 n1 f t x0 f0 hd (ros_hist l)) = Ret tt
  | RSolve _ _ => True end.
Proof. exact hist_init. Qed.
Print Assumptions C44_initialises.
Theorem C44_first : forall (n2 n1 : nat) (f : Qc -> list Qc -> Outcome (list Qc)) (t : Qc) (x0 f0 : list Qc) (hd : Qc),
  call_ok (RInit true n2 n1 f t x0 f0 hd) -> snd (ros_init true n2 n1 f t x0 f0 hd ros_new) = Ret tt.
Proof. exact first_init. Qed.
Print Assumptions C44_first.

(** C45.  What doStep of SW2(4) computes: the state is that of the method's formulas, with the decomposition of the step size the call started with;
    the second order case is covered if no attempt was refused. *)
Theorem C45_step : forall (W : Type) (ev : events QcNum W) (c : rcfg W) (f : Qc -> list Qc -> Outcome (list Qc)), r_safe ev c f ->
  forall (s : rst W) (fuel : nat) (s' : rst W) (l : list (postarg QcNum)) (a : postarg QcNum), sw_reach ev c s -> sw_step ev c fuel s = (s', l, Some (AAccepted a)) ->
  pa_trunc a = false -> (q_h s * rc_d c)%Qc <> 0%Qc -> solvable (q_ros s') (q_h s * rc_d c)%Qc -> rc_n2 c = 0 \/ length l = 1 ->
  exists f0 k1 k2 : list Qc, f (q_t s) (q_x s) = Ret f0 /\ step_jac c f s f0 (jac (q_ros s')) /\ q_t s' = (q_t s + pa_h a)%Qc /\ (length l = 1 -> pa_h a = q_h s) /\
    sw_formula (rc_n c) (jac (q_ros s')) (q_h s * rc_d c) (pa_h a * rc_d c) f (q_t s) (q_x s) f0 (pa_h a) k1 k2 (q_x s') /\
    (rc_nocheck c = false -> exists f1 est : list Qc, f (q_t s') (q_x s') = Ret f1 /\ rc_norm c est = Ret (pa_err a) /\
       sw_estimate (rc_n c) (jac (q_ros s')) (q_h s * rc_d c) (pa_h a * rc_d c) f (q_t s) (pa_h a) k1 k2 (q_x s') f1 est).
Proof. exact @sw_step_ok. Qed.
Print Assumptions C45_step.
(** C45.  With the decomposition of its own step size, a step of SW2(4) has order two whatever the matrix J, and the error estimate is of third order. *)
Theorem C45_order_two : forall (n : nat) (J : nat -> nat -> Qc) (d : Qc) (f : Qc -> list Qc -> Outcome (list Qc)) (t : Qc) (x f0 : list Qc) (g : nat -> Qc) (F : nat -> nat -> Qc),
  expands n f t x f0 g F -> exists C h0 : Qc, (0 <= C)%Qc /\ (0 < h0)%Qc /\
  forall (h : Qc) (k1 k2 next : list Qc), (Qcabs h <= h0)%Qc -> sw_formula n J (h * d) (h * d) f t x f0 h k1 k2 next ->
    (norm1 n (fun j => (cmp_ next j - taylor2 n x f0 g F h j)%Qc) <= C * Qcabs h ^ 3)%Qc.
Proof. exact sw_order. Qed.
Print Assumptions C45_order_two.
Theorem C45_estimate : forall (n : nat) (J : nat -> nat -> Qc) (d : Qc) (f : Qc -> list Qc -> Outcome (list Qc)) (t : Qc) (x f0 : list Qc) (g : nat -> Qc) (F : nat -> nat -> Qc),
  expands n f t x f0 g F -> exists C h0 : Qc, (0 <= C)%Qc /\ (0 < h0)%Qc /\
  forall (h : Qc) (k1 k2 next f1 est : list Qc), (Qcabs h <= h0)%Qc -> sw_formula n J (h * d) (h * d) f t x f0 h k1 k2 next -> f (t + h)%Qc next = Ret f1 ->
    sw_estimate n J (h * d) (h * d) f t h k1 k2 next f1 est -> (norm1 n (cmp_ est) <= C * Qcabs h ^ 3)%Qc.
Proof. exact sw_estimate_order. Qed.
Print Assumptions C45_estimate.
(** C45.  The first attempt does not fail; without second order variables none does; refused attempts leave time and state as they are. *)
Theorem C45_first_attempt : forall (W : Type) (ev : events QcNum W) (c : rcfg W) (f : Qc -> list Qc -> Outcome (list Qc)), r_safe ev c f ->
  forall (s s' : rst W) (o : attempt QcNum), sw_reach ev c s -> (q_h s * rc_d c)%Qc <> 0%Qc -> solvable (q_ros (fst (q_init c false s))) (q_h s * rc_d c)%Qc ->
  sw_attempt ev c true s = (s', o) -> o <> AThrow /\ o <> AUb /\ forall a, o = ARejected a -> q_t s' = q_t s /\ q_x s' = q_x s.
Proof. exact @sw_first. Qed.
Print Assumptions C45_first_attempt.
Theorem C45_safe : forall (W : Type) (ev : events QcNum W) (c : rcfg W) (f : Qc -> list Qc -> Outcome (list Qc)), r_safe ev c f ->
  forall (s : rst W) (fuel : nat), sw_reach ev c s -> rc_n2 c = 0 -> (q_h s * rc_d c)%Qc <> 0%Qc -> solvable (q_ros (fst (q_init c false s))) (q_h s * rc_d c)%Qc ->
  snd (sw_step ev c fuel s) <> Some AThrow /\ snd (sw_step ev c fuel s) <> Some AUb.
Proof. exact @sw_safe. Qed.
Print Assumptions C45_safe.
Theorem C45_refused : forall (W : Type) (ev : events QcNum W) (c : rcfg W) (f : Qc -> list Qc -> Outcome (list Qc)), r_safe ev c f ->
  forall (s : rst W) (fuel : nat) (s' : rst W) (l : list (postarg QcNum)), sw_reach ev c s -> sw_step ev c fuel s = (s', l, None) -> q_t s' = q_t s /\ q_x s' = q_x s.
Proof. exact @sw_rejections. Qed.
Print Assumptions C45_refused.

(** C60.  What doStep of W1 computes. *)
Theorem C60_step : forall (W : Type) (ev : events QcNum W) (c : rcfg W) (f : Qc -> list Qc -> Outcome (list Qc)), r_safe ev c f ->
  forall (s s' : rst W) (a : postarg QcNum), w1_reach ev c s -> w1_step ev c s = (s', AAccepted a) -> pa_trunc a = false -> (q_h s * rc_d c)%Qc <> 0%Qc ->
  solvable (q_ros s') (q_h s * rc_d c)%Qc ->
  exists f0 k1 : list Qc, f (q_t s) (q_x s) = Ret f0 /\ step_jac c f s f0 (jac (q_ros s')) /\ q_t s' = (q_t s + q_h s)%Qc /\ q_h s' = q_h s /\
    w1_formula (rc_n c) (jac (q_ros s')) (q_h s * rc_d c) (q_x s) f0 (q_h s) k1 (q_x s').
Proof. exact @w1_step_ok. Qed.
Print Assumptions C60_step.
Theorem C60_accepts : forall (W : Type) (ev : events QcNum W) (c : rcfg W) (f : Qc -> list Qc -> Outcome (list Qc)), r_safe ev c f ->
  forall s : rst W, w1_reach ev c s -> (q_h s * rc_d c)%Qc <> 0%Qc -> solvable (q_ros (fst (q_init c true s))) (q_h s * rc_d c)%Qc ->
  exists a : postarg QcNum, snd (w1_step ev c s) = AAccepted a /\ pa_h a = q_h s.
Proof. exact @w1_safe. Qed.
Print Assumptions C60_accepts.
(** C60.  Order one whatever the matrix J. *)
Theorem C60_order_one : forall (n : nat) (J : nat -> nat -> Qc) (d : Qc) (x f0 : list Qc), exists C h0 : Qc, (0 <= C)%Qc /\ (0 < h0)%Qc /\
  forall (h : Qc) (k1 next : list Qc), (Qcabs h <= h0)%Qc -> w1_formula n J (h * d) x f0 h k1 next ->
    (norm1 n (fun j => (cmp_ next j - (cmp_ x j + h * cmp_ f0 j))%Qc) <= C * Qcabs h ^ 2)%Qc.
Proof. exact w1_order. Qed.
Print Assumptions C60_order_one.
(** C60.  With d = 1 and the exact Jacobian of a linear system x' = A x + b a step is one of the implicit Euler method, which does not increase the energy of dissipative systems, for any step size. *)
Theorem C60_implicit_euler : forall (n : nat) (A : nat -> nat -> Qc) (b : nat -> Qc) (J : nat -> nat -> Qc) (h : Qc) (x f0 k1 next : list Qc),
  (forall i k, i < n -> k < n -> J i k = A i k) -> (forall j, j < n -> cmp_ f0 j = (qsum n (fun k => A j k * cmp_ x k) + b j)%Qc) ->
  w1_formula n J (h * 1) x f0 h k1 next -> forall j, j < n -> cmp_ next j = (cmp_ x j + h * (qsum n (fun k => A j k * cmp_ next k) + b j))%Qc.
Proof. exact w1_linear. Qed.
Print Assumptions C60_implicit_euler.
Theorem C60_stable : forall (n : nat) (A : nat -> nat -> Qc) (h : Qc) (x next : list Qc),
  (forall j, j < n -> cmp_ next j = (cmp_ x j + h * qsum n (fun k => A j k * cmp_ next k))%Qc) -> dissipative n A -> (0 <= h)%Qc -> (energy n next <= energy n x)%Qc.
Proof. exact euler_energy. Qed.
Print Assumptions C60_stable.
