(** PropFp.v - the explicit Runge-Kutta solvers in rounded arithmetic (C83). *)
From Coq Require Import List Arith ZArith QArith Qcanon Reals.
From Verif Require Import Base VecModel VOps RkModel RkSpec StepModel StepSpec ConvSpec HighSpec FpSpec FpFacts FpFacts4 FpFacts5 FpFacts6.
Import ListNotations.
Local Open Scope R_scope.

(** C83: in any arithmetic whatever - no law of addition or multiplication is assumed - one step evaluates the right-hand side once per stage, at times t1 + h c, and
    forms every argument and every result by adding slope * (h * coefficient) to the old state, term after term from the first stage on. *)
Theorem C83_any_arithmetic : forall (N : Num) co (stages n nx : nat) f x1 t1 h (o : output N),
  wf_table co stages nx -> shortcut_ok co stages -> good_rhs n f -> length x1 = n -> shaped o stages n nx ->
  exists o' evals, rk_compute o co f x1 t1 h = Ret (o', evals) /\ shaped o' stages n nx /\ stagesN co stages n f x1 t1 h evals (o_k o') /\
    (forall ix, (ix < nx)%nat -> resultN co stages n ix x1 h (o_k o') (nth ix (o_x2 o') [])).
Proof. exact @compute_allN. Qed.
Print Assumptions C83_any_arithmetic.
(** The fixed step solver, rounded and exact, side by side from the same state: after count steps the two states differ by at most C (phi + count (u + eta)), where each operation
    has the relative error u and the absolute error eta, the coefficients have been rounded, and the right-hand side is computed with accuracy phi.  One C for all roundings, step sizes
    and numbers of steps. *)
Theorem C83_rounding : forall f n L t0 T b0 co stages, wf_table co stages 1 -> shortcut_ok co stages -> sized n f -> 0 <= L -> lipschitz n L f -> 0 <= T -> 0 <= b0 ->
  exists C, 0 <= C /\ forall (W W' : Type) rnd u eta phi g (s0 : rkst (FNum rnd) W) (r0 : rkst RNum W') h count x0,
  rounds rnd u eta -> 0 <= u -> 0 <= eta -> 0 <= phi <= 1 -> sized n g -> accurate n phi f g ->
  0 < h -> INR count * h <= T -> INR count * (u + eta) <= 1 -> length x0 = n -> bound n x0 b0 ->
  exists s' posts r' posts', rk_steps (N:=FNum rnd) no_events (rhs_ofF rnd g) (tabF rnd co) n h count (rk_set (N:=FNum rnd) no_events t0 x0 s0) = Ret (s', posts) /\
    rk_steps (N:=RNum) no_events (rhs_of f) co n h count (rk_set (N:=RNum) no_events t0 x0 r0) = Ret (r', posts') /\
    Rabs (rk_t s' - rk_t r') <= C * (INR count * (u + eta)) /\ near n (rk_x s') (rk_x r') (C * (phi + INR count * (u + eta))).
Proof. exact rounded_runs. Qed.
Print Assumptions C83_rounding.
(** Against the solution of the equation: a table of order p (up to delta) gives the error C (d + h^p + delta + phi + count (u + eta)). *)
Theorem C83_order : forall f n L X t0 T p co stages delta, (0 < p)%nat -> wf_table co stages 1 -> shortcut_ok co stages -> order_upto co stages 0 p delta -> (delta <= 1)%Qc ->
  sized n f -> 0 <= L -> lipschitz n L f -> 0 <= T -> solves n f X t0 (t0 + T) -> smooth_along n p f X t0 (t0 + T) ->
  exists C, 0 <= C /\ forall (W : Type) rnd u eta phi g (s0 : rkst (FNum rnd) W) h count x0 d,
  rounds rnd u eta -> 0 <= u -> 0 <= eta -> 0 <= phi <= 1 -> sized n g -> accurate n phi f g ->
  0 < h -> INR count * h <= T -> INR count * (u + eta) <= 1 -> length x0 = n -> 0 <= d <= 1 -> near n x0 (X t0) d ->
  exists s' posts, rk_steps (N:=FNum rnd) no_events (rhs_ofF rnd g) (tabF rnd (tabR co)) n h count (rk_set (N:=FNum rnd) no_events t0 x0 s0) = Ret (s', posts) /\
    Rabs (rk_t s' - (t0 + INR count * h)) <= C * (INR count * (u + eta)) /\
    near n (rk_x s') (X (t0 + INR count * h)) (C * (d + h ^ p + q2r delta + phi + INR count * (u + eta))).
Proof. exact order_rounded. Qed.
Print Assumptions C83_order.
(** The adaptive solvers, whatever the controller, the norm and the rejected attempts - which are computed in rounded arithmetic as well. *)
Theorem C83_adaptive : forall f n L X t0 T p co stages ix delta, (0 < p)%nat -> (ix < 2)%nat -> wf_table co stages 2 -> shortcut_ok co stages -> order_upto co stages ix p delta -> (delta <= 1)%Qc ->
  sized n f -> 0 <= L -> lipschitz n L f -> 0 <= T -> solves n f X t0 (t0 + T) -> smooth_along n p f X t0 (t0 + T) ->
  exists C, 0 <= C /\ forall (W : Type) rnd u eta phi g (c : erkcfg (FNum rnd)) (s0 s' : rkst (FNum rnd) W) l H x0 d,
  rounds rnd u eta -> 0 <= u -> 0 <= eta -> 0 <= phi <= 1 -> sized n g -> accurate n phi f g -> e_n c = n -> e_co c = tabF rnd (tabR co) -> e_mode c = ix ->
  adaptive_runN (rhs_ofF rnd g) c (erk_set (N:=FNum rnd) no_events t0 x0 s0) l s' -> Forall (fun h => 0 < h <= H) l -> 0 <= H -> total l <= T ->
  INR (length l) * (u + eta) <= 1 -> length x0 = n -> 0 <= d <= 1 -> near n x0 (X t0) d ->
    Rabs (rk_t s' - (t0 + total l)) <= C * (INR (length l) * (u + eta)) /\
    near n (rk_x s') (X (t0 + total l)) (C * (d + H ^ p + q2r delta + phi + INR (length l) * (u + eta))).
Proof. exact order_rounded_adaptive. Qed.
Print Assumptions C83_adaptive.
(** The C++ type double: IEEE binary64, as long as nothing overflows, has u = 2^-53 and eta = 2^-1075. *)
Theorem C83_binary64 : rounds binary64 (/ 2 ^ 53) (/ 2 ^ 1075).
Proof. exact binary64_rounds. Qed.
Print Assumptions C83_binary64.
(** The accuracy of a right-hand side computed in rounded arithmetic: x' = M x by rounded dot products has phi = K (u + eta), K depending on M only. *)
Theorem C83_linear_rhs : forall n M, exists K, 0 <= K /\ forall rnd u eta, rounds rnd u eta -> 0 <= u -> 0 <= eta -> u + eta <= 1 ->
  sized n (linearF rnd n M) /\ accurate n (K * (u + eta)) (linearR n M) (linearF rnd n M).
Proof. exact linear_accurate. Qed.
Print Assumptions C83_linear_rhs.
