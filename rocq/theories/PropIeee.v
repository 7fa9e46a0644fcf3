(** PropIeee.v - the explicit Runge-Kutta solvers in numbers of type double, with infinities and NaN (C89). *)
From Coq Require Import List Arith ZArith QArith Qcanon Reals.
From Verif Require Import Base VecModel VOps RkModel RkSpec StepModel StepSpec ConvSpec HighSpec FpSpec IeeeSpec IeeeFacts2 IeeeFacts3 IeeeFacts4 IeeeFacts5 LinFacts.
Import ListNotations.
Local Open Scope R_scope.

(** C89: as long as the run in rounded arithmetic (which has no largest number) stays within the times S and the states B, and the sizes that follow for the arguments and the slopes are
    at most 2^1000, the run in IEEE doubles succeeds, meets no infinity and no NaN in its states, and holds the very same numbers. *)
Theorem C89_same_run : forall {W W' : Type} (coD : coeffs DNum) (co : coeffs (FNum binary64)) (stages n : nat) gD g hD h A B G S,
  wf_table co stages 1 -> shortcut_ok coD stages -> shortcut_ok co stages -> table_holds A coD co -> holds hD h -> 0 <= A -> 0 <= B -> 0 <= G -> 0 <= S -> INR stages <= 4096 ->
  state_size stages A G h B <= 2 ^ 1000 -> time_size A h S <= 2 ^ 1000 -> rhs_holds n (time_size A h S) (state_size stages A G h B) G gD g -> sizedD n gD -> sized n g ->
  forall t0D t0 x0D x0 (s0D : rkst DNum W) (s0 : rkst (FNum binary64) W') count, holds t0D t0 -> holdsV n x0D x0 ->
  (forall m s' posts, (m <= count)%nat -> rk_steps (N:=FNum binary64) no_events (rhs_ofF binary64 g) co n h m (rk_set (N:=FNum binary64) no_events t0 x0 s0) = Ret (s', posts) ->
     Rabs (rk_t s' : R) <= S /\ bound n (rk_x s') B) ->
  exists sD' pD s' p, rk_steps (N:=DNum) no_events (rhs_ofD gD) coD n hD count (rk_set (N:=DNum) no_events t0D x0D s0D) = Ret (sD', pD) /\
    rk_steps (N:=FNum binary64) no_events (rhs_ofF binary64 g) co n h count (rk_set (N:=FNum binary64) no_events t0 x0 s0) = Ret (s', p) /\
    holds (rk_t sD') (rk_t s') /\ holdsV n (rk_x sD') (rk_x s').
Proof. exact @same_run. Qed.
Print Assumptions C89_same_run.
(** Against the solution of the equation: no assumption on the run; that the solution stays below B by more than the error bound, and the sizes that follow are at most 2^1000, suffices. *)
Theorem C89_order : forall f n L X t0 T p co stages delta, (0 < p)%nat -> wf_table co stages 1 -> shortcut_ok co stages -> order_upto co stages 0 p delta -> (delta <= 1)%Qc ->
  sized n f -> 0 <= L -> lipschitz n L f -> 0 <= T -> solves n f X t0 (t0 + T) -> smooth_along n p f X t0 (t0 + T) -> INR stages <= 4096 ->
  exists C, 0 <= C /\ forall (W : Type) coD gD g (s0 : rkst DNum W) hD h count t0D x0D x0 d phi A B G,
  table_holds A coD (tabF binary64 (tabR co)) -> shortcut_ok coD stages -> 0 <= A -> 0 <= G -> 0 <= phi <= 1 -> sizedD n gD -> sized n g -> accurate n phi f g ->
  0 < h -> holds hD h -> holds t0D t0 -> holdsV n x0D x0 -> INR count * h <= T -> INR count * (/ 2 ^ 53 + / 2 ^ 1075) <= 1 -> 0 <= d <= 1 -> near n x0 (X t0) d ->
  let E := C * (d + h ^ p + q2r delta + phi + INR count * (/ 2 ^ 53 + / 2 ^ 1075)) in let S := Rabs t0 + T + C * (INR count * (/ 2 ^ 53 + / 2 ^ 1075)) in
  (forall t, t0 <= t <= t0 + T -> bound n (X t) (B - E)) -> 0 <= B -> state_size stages A G h B <= 2 ^ 1000 -> time_size A h S <= 2 ^ 1000 ->
  rhs_holds n (time_size A h S) (state_size stages A G h B) G gD g ->
  exists s' posts t x, rk_steps (N:=DNum) no_events (rhs_ofD gD) coD n hD count (rk_set (N:=DNum) no_events t0D x0D s0) = Ret (s', posts) /\
    holds (rk_t s') t /\ holdsV n (rk_x s') x /\ Rabs (t - (t0 + INR count * h)) <= C * (INR count * (/ 2 ^ 53 + / 2 ^ 1075)) /\ near n x (X (t0 + INR count * h)) E.
Proof. exact order_double. Qed.
Print Assumptions C89_order.
(** Every table of rational numbers of moderate size, converted to doubles, meets the conditions on the table. *)
Theorem C89_tables : forall co stages A, table_size A co -> A <= 2 ^ 1000 -> shortcut_ok co stages -> table_holds A (tabD co) (tabF binary64 co) /\ shortcut_ok (tabD co) stages.
Proof. exact table_in_doubles. Qed.
Print Assumptions C89_tables.
(** Linear systems x' = M x, the products and sums of which are computed in doubles as well: everything stays finite, and the error bound holds.  Smoothness need not be assumed. *)
Theorem C89_linear : forall n M a X t0 T p co stages delta, (0 < p)%nat -> wf_table co stages 1 -> shortcut_ok co stages -> order_upto co stages 0 p delta -> (delta <= 1)%Qc ->
  0 <= a -> (forall i j, (i < n)%nat -> (j < n)%nat -> Rabs (M i j) <= a) -> INR n <= 4096 -> INR stages <= 4096 -> 0 <= T -> solves n (linearR n M) X t0 (t0 + T) ->
  exists C, 0 <= C /\ forall (W : Type) MD (s0 : rkst DNum W) hD h count t0D x0D x0 d A B,
  matrix_holds n a MD M -> table_size A (tabR co) -> 0 <= A <= 2 ^ 1000 -> 0 < h -> holds hD h -> holds t0D t0 -> holdsV n x0D x0 ->
  INR count * h <= T -> INR count * (/ 2 ^ 53 + / 2 ^ 1075) <= 1 -> 0 <= d <= 1 -> near n x0 (X t0) d -> Rabs h * A * (INR stages * (INR n * a)) <= / 128 -> INR stages * (INR n * a) <= 2 ^ 40 ->
  let E := C * (d + h ^ p + q2r delta + (INR count + 1) * (/ 2 ^ 53 + / 2 ^ 1075)) in
  E <= 1 -> (forall t, t0 <= t <= t0 + T -> bound n (X t) (B - E)) -> 0 <= B ->
  state_size stages A (16 * (INR n * a * B) + 2) h B <= 2 ^ 1000 -> 16 * (INR n * a * B) + 2 <= 2 ^ 1000 -> time_size A h (Rabs t0 + T + E) <= 2 ^ 1000 ->
  exists s' posts t x, rk_steps (N:=DNum) no_events (rhs_ofD (linearD n MD)) (tabD (tabR co)) n hD count (rk_set (N:=DNum) no_events t0D x0D s0) = Ret (s', posts) /\
    holds (rk_t s') t /\ holdsV n (rk_x s') x /\ Rabs (t - (t0 + INR count * h)) <= C * (INR count * (/ 2 ^ 53 + / 2 ^ 1075)) /\ near n x (X (t0 + INR count * h)) E.
Proof. exact linear_double_smooth. Qed.
Print Assumptions C89_linear.
(** The adaptive solvers: whatever the step size controller, the error norm and the rejected attempts - which may overflow -, if the accepted step sizes are finite and positive, the states
    reached are finite and have the error bound. *)
Theorem C89_adaptive : forall f n L X t0 T p co stages ix delta, (0 < p)%nat -> (ix < 2)%nat -> wf_table co stages 2 -> shortcut_ok co stages -> order_upto co stages ix p delta -> (delta <= 1)%Qc ->
  sized n f -> 0 <= L -> lipschitz n L f -> 0 <= T -> solves n f X t0 (t0 + T) -> smooth_along n p f X t0 (t0 + T) -> INR stages <= 4096 ->
  exists C, 0 <= C /\ forall (W : Type) gD g (c : erkcfg DNum) (s0 s' : rkst DNum W) lD l H t0D x0D x0 d phi A B G,
  e_n c = n -> table_holds A (e_co c) (tabF binary64 (tabR co)) -> shortcut_ok (e_co c) stages -> e_mode c = ix -> 0 <= A -> 0 <= G -> 0 <= phi <= 1 -> sizedD n gD -> sized n g -> accurate n phi f g ->
  holds t0D t0 -> holdsV n x0D x0 -> adaptive_runN (rhs_ofD gD) c (erk_set (N:=DNum) no_events t0D x0D s0) lD s' -> Forall2 holds lD l -> Forall (fun h => 0 < h <= H) l -> 0 <= H -> total l <= T ->
  INR (length l) * (/ 2 ^ 53 + / 2 ^ 1075) <= 1 -> 0 <= d <= 1 -> near n x0 (X t0) d ->
  let E := C * (d + H ^ p + q2r delta + phi + INR (length l) * (/ 2 ^ 53 + / 2 ^ 1075)) in let S := Rabs t0 + T + C * (INR (length l) * (/ 2 ^ 53 + / 2 ^ 1075)) in
  (forall t, t0 <= t <= t0 + T -> bound n (X t) (B - E)) -> 0 <= B -> state_size stages A G H B <= 2 ^ 1000 -> time_size A H S <= 2 ^ 1000 ->
  rhs_holds n (time_size A H S) (state_size stages A G H B) G gD g ->
  exists t x, holds (rk_t s') t /\ holdsV n (rk_x s') x /\ Rabs (t - (t0 + total l)) <= C * (INR (length l) * (/ 2 ^ 53 + / 2 ^ 1075)) /\ near n x (X (t0 + total l)) E.
Proof. exact adaptive_double. Qed.
Print Assumptions C89_adaptive.
