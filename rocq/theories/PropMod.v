(** PropMod.v - properties of the test models (C63, C64, C65, C66, C67). *)
From Coq Require Import List Arith ZArith QArith Qcanon.
From Verif Require Import Base SpModel VecModel VOps MapModel LUModel NewtModel NewtSpec RkModel RkSpec EvModel ImpModel ImpSpec ModModel ModSpec ModFacts4 ModFacts5 ModFacts6 ModFacts7 ModFacts8 ModFacts9.
Import ListNotations.
Local Open Scope nat_scope.

(** C63: whatever the method, the gravity, the recovery factor and the sticking speed, a ball that starts on or above the plane is never found below it,
    and nothing undefined happens. *)
Theorem C63_above : forall (b : ball QcNum) (co : coeffs QcNum) stages h, wf_table co stages 1 -> shortcut_ok co stages ->
  forall t0 y0 v0 (s0 : bstate) count, (0 <= y0)%Qc ->
  match ball_steps b co h count (ball_start b t0 [y0; v0] s0) with Ret (s', _) => (0 <= height s')%Qc | Throw => True | UB => False end.
Proof. exact above. Qed.
Print Assumptions C63_above.

(** C63: no infinitely many impacts in a finite time: count steps of size h take at least half of count * h, up to one step. *)
Theorem C63_time : forall (b : ball QcNum) (co : coeffs QcNum) stages h, wf_table co stages 1 -> shortcut_ok co stages -> (0 < h)%Qc ->
  forall t0 y0 v0 (s0 : bstate) count s' posts, (0 <= b_r b)%Qc -> (0 <= y0)%Qc -> ball_steps b co h count (ball_start b t0 [y0; v0] s0) = Ret (s', posts) ->
  (qn count * h <= qc 2 1 * (rk_t s' - t0) + qc 2 1 * h)%Qc /\ (t0 <= rk_t s')%Qc /\ (rk_t s' <= t0 + qn count * h)%Qc.
Proof. exact timely. Qed.
Print Assumptions C63_time.

(** C63: with a method of second order, the energy after any number of steps and impacts is at most the initial one. *)
Theorem C63_energy : forall (b : ball QcNum) (co : coeffs QcNum) stages h, wf_table co stages 1 -> shortcut_ok co stages ->
  forall t0 y0 v0 (s0 : bstate) count s' posts, order_two co stages -> (b_r b * b_r b <= 1)%Qc -> (0 <= y0)%Qc ->
  ball_steps b co h count (ball_start b t0 [y0; v0] s0) = Ret (s', posts) -> (ModSpec.energy (b_g b) s' <= v0 * v0 + qc 2 1 * b_g b * y0)%Qc.
Proof. exact loses. Qed.
Print Assumptions C63_energy.

(** C63: until it reaches the plane, the ball follows the parabola exactly. *)
Theorem C63_free_flight : forall (b : ball QcNum) (co : coeffs QcNum) stages h, wf_table co stages 1 -> shortcut_ok co stages ->
  forall t0 y0 v0 (s0 : bstate) count, order_two co stages -> ~ stuck s0 -> (0 <= y0)%Qc -> (forall k, 0 < k <= count -> (0 < free_height (b_g b) y0 v0 h k)%Qc) ->
  exists s' posts, ball_steps b co h count (ball_start b t0 [y0; v0] s0) = Ret (s', posts) /\ rk_t s' = (t0 + qn count * h)%Qc /\
    height s' = free_height (b_g b) y0 v0 h count /\ speed s' = free_speed (b_g b) v0 h count.
Proof. exact flies. Qed.
Print Assumptions C63_free_flight.

(** C63: a ball that starts on the plane never makes the solver fail; *)
Theorem C63_from_plane : forall (b : ball QcNum) (co : coeffs QcNum) stages h, wf_table co stages 1 -> shortcut_ok co stages ->
  forall t0 v0 (s0 : bstate) count, exists s' posts, ball_steps b co h count (ball_start b t0 [0%Qc; v0] s0) = Ret (s', posts).
Proof. exact from_plane. Qed.
Print Assumptions C63_from_plane.
(** a ball that starts above it does not either, unless its parabola is at height zero exactly at the end of a step; *)
Theorem C63_no_failure : forall (b : ball QcNum) (co : coeffs QcNum) stages h, wf_table co stages 1 -> shortcut_ok co stages ->
  forall t0 y0 v0 (s0 : bstate) count, order_two co stages -> ~ stuck s0 -> (0 <= y0)%Qc -> (forall k, 0 < k -> free_height (b_g b) y0 v0 h k <> 0%Qc) ->
  exists s' posts, ball_steps b co h count (ball_start b t0 [y0; v0] s0) = Ret (s', posts).
Proof. exact not_exact. Qed.
Print Assumptions C63_no_failure.
(** and then it does. *)
Theorem C63_exact_landing_fails : forall (b : ball QcNum) (co : coeffs QcNum) stages h, wf_table co stages 1 -> shortcut_ok co stages ->
  forall t0 y0 v0 (s0 : bstate) count, order_two co stages -> ~ stuck s0 -> (0 < y0)%Qc -> (forall k, 0 < k <= count -> (0 < free_height (b_g b) y0 v0 h k)%Qc) ->
  free_height (b_g b) y0 v0 h (S count) = 0%Qc -> ball_steps b co h (S count) (ball_start b t0 [y0; v0] s0) = Throw.
Proof. exact lands. Qed.
Print Assumptions C63_exact_landing_fails.

(** C64: an impact: a ball that arrives fast enough leaves with the speed reversed and reduced by the recovery factor; a ball that arrives slower than the
    sticking speed, or that does not move down, stops: its height and its speed become zero. *)
Theorem C64_impact : forall (b : ball QcNum) sticking transitions t y v,
  ((v < 0)%Qc -> (b_s b <= - v)%Qc -> ball_switch b sticking transitions t [y; v] = Ret (sticking, [y; (- (b_r b * v))%Qc])) /\
  ((v < 0)%Qc -> (- v < b_s b)%Qc -> ball_switch b sticking transitions t [y; v] = Ret (true, [0%Qc; 0%Qc])) /\
  ((0 <= v)%Qc -> ball_switch b sticking transitions t [y; v] = Ret (true, [0%Qc; 0%Qc])).
Proof. exact landing. Qed.
Print Assumptions C64_impact.

(** C64: a ball that has stuck lies on the plane, and stays there while time goes on in full steps. *)
Theorem C64_stays : forall (b : ball QcNum) (co : coeffs QcNum) stages h, wf_table co stages 1 -> shortcut_ok co stages ->
  forall t0 y0 v0 (s0 : bstate) count s1 posts, ~ stuck s0 -> (0 <= y0)%Qc -> ball_steps b co h count (ball_start b t0 [y0; v0] s0) = Ret (s1, posts) -> stuck s1 ->
  rk_x s1 = [0%Qc; 0%Qc] /\
  forall more, exists s' posts', ball_steps b co h (count + more) (ball_start b t0 [y0; v0] s0) = Ret (s', posts') /\ stuck s' /\ rk_x s' = [0%Qc; 0%Qc] /\ rk_t s' = (rk_t s1 + qn more * h)%Qc.
Proof. exact stays. Qed.
Print Assumptions C64_stays.

(** C64: if impacts lose energy, the ball comes to rest after finitely many steps, whatever the sticking speed. *)
Theorem C64_rests : forall (b : ball QcNum) (co : coeffs QcNum) stages h, wf_table co stages 1 -> shortcut_ok co stages -> (0 < h)%Qc ->
  forall t0 y0 v0 (s0 : bstate), order_two co stages -> (0 < b_g b)%Qc -> (0 <= b_r b)%Qc -> (b_r b < 1)%Qc -> ~ stuck s0 -> (0 <= y0)%Qc ->
  y0 = 0%Qc \/ (forall k, 0 < k -> free_height (b_g b) y0 v0 h k <> 0%Qc) ->
  exists n, forall count, n <= count -> exists s' posts, ball_steps b co h count (ball_start b t0 [y0; v0] s0) = Ret (s', posts) /\ stuck s' /\ rk_x s' = [0%Qc; 0%Qc].
Proof. exact rests_safely. Qed.
Print Assumptions C64_rests.

(** C64: but giving a new initial state to a ball that has stuck leaves it stuck: it hangs at the new height, with the new speed, forever. *)
Theorem C64_restart_hangs : forall (b : ball QcNum) (co : coeffs QcNum) stages h, wf_table co stages 1 -> shortcut_ok co stages ->
  forall t0 y0 v0 (s0 : bstate) count, stuck s0 -> (0 <= y0)%Qc ->
  exists s' posts, ball_steps b co h count (ball_start b t0 [y0; v0] s0) = Ret (s', posts) /\ rk_x s' = [y0; v0] /\ rk_t s' = (t0 + qn count * h)%Qc.
Proof. exact hangs. Qed.
Print Assumptions C64_restart_hangs.

(** C65: the slopes of the chain: the speeds, and the differences of the tensions of the neighbouring springs, the constant force on the last mass included. *)
Theorem C65_motion : forall n c0 c2 f t x, length x = 2 * n -> exists y, cpl_rhs (N:=QcNum) n c0 c2 f t x = Ret y /\ length y = 2 * n /\
  forall i, i < n -> cmp_ y i = cmp_ x (n + i) /\ cmp_ y (n + i) = (tension n c0 c2 f x (i + 1) - tension n c0 c2 f x i)%Qc.
Proof. exact chain_motion. Qed.
Print Assumptions C65_motion.
(** C65: the energy is a first integral: along the slopes it changes by second and higher powers of the displacement only. *)
Theorem C65_energy : forall n c0 c2 f t x, length x = 2 * n -> exists y q2 q3 q4, cpl_rhs (N:=QcNum) n c0 c2 f t x = Ret y /\ length y = 2 * n /\
  forall e, chain_energy n c0 c2 f (moved (2 * n) x y e) = (chain_energy n c0 c2 f x + e * e * (q2 + e * q3 + e * e * q4))%Qc.
Proof. exact chain. Qed.
Print Assumptions C65_energy.

(** C66: the energy of the linear oscillator after count steps of the Euler method, *)
Theorem C66_euler : forall c f h (W : Type) t0 x0 (s0 : rkst QcNum W) count, length x0 = 2 ->
  exists s' posts, rk_steps (N:=QcNum) no_events (fun _ => osc_rhs (N:=QcNum) c f) tab_euler 2 h count (rk_set (N:=QcNum) no_events t0 x0 s0) = Ret (s', posts) /\
    length (rk_x s') = 2 /\ rk_t s' = (t0 + qn count * h)%Qc /\ osc_energy c f (rk_x s') = (qpow (1 + c * (h * h)) count * osc_energy c f x0)%Qc.
Proof. exact run_euler. Qed.
Print Assumptions C66_euler.
(** of the classical Runge-Kutta method, *)
Theorem C66_rk4 : forall c f h (W : Type) t0 x0 (s0 : rkst QcNum W) count, length x0 = 2 ->
  exists s' posts, rk_steps (N:=QcNum) no_events (fun _ => osc_rhs (N:=QcNum) c f) tab_rk4 2 h count (rk_set (N:=QcNum) no_events t0 x0 s0) = Ret (s', posts) /\
    length (rk_x s') = 2 /\ rk_t s' = (t0 + qn count * h)%Qc /\ osc_energy c f (rk_x s') = (qpow (rk4_factor c h) count * osc_energy c f x0)%Qc.
Proof. exact run_rk4. Qed.
Print Assumptions C66_rk4.
(** and of the implicit method. *)
Theorem C66_implicit : forall (W P : Type) (cf : icfg QcNum W P) (dx : Qc) (lit : ls_lit QcNum) (mt limit : nat),
  (forall t x w, ic_before cf t x w = Ret w) -> ic_ord cf = None -> ic_pred cf = None -> dx <> 0%Qc -> (l_eta lit <= 1)%Qc -> 0 < mt -> 2 <= limit ->
  forall c f, ic_nd cf = 1 -> ic_nf cf = 0 -> (forall w t x, ic_rhs cf w t x = osc_rhs (N:=QcNum) c f t x) ->
  forall count (s : ist QcNum W P (perf QcNum (S:=LUModel.lu))), fresh_start cf s ->
  let al := em_alpha (i_map s) in let h := ic_h cf in
  (1 + c * (h * al * (h * al)) <> 0)%Qc ->
  exists s', i_steps no_events (plain_newton (N:=QcNum) (simple_dd dx None) lit mt limit) cf count s = Some s' /\ em_t (i_map s') = (em_t (i_map s) + qn count * h)%Qc /\
    (qpow (1 + c * (h * al * (h * al))) count * osc_energy c f (em_x (i_map s')) =
     qpow (1 + c * (h * (1 - al) * (h * (1 - al)))) count * osc_energy c f (em_x (i_map s)))%Qc.
Proof. exact @osc_implicit. Qed.
Print Assumptions C66_implicit.

(** C66: in particular the implicit method with al = 1/2 keeps the energy exactly. *)
Theorem C66_conserves : forall (W P : Type) (cf : icfg QcNum W P) (dx : Qc) (lit : ls_lit QcNum) (mt limit : nat),
  (forall t x w, ic_before cf t x w = Ret w) -> ic_ord cf = None -> ic_pred cf = None -> dx <> 0%Qc -> (l_eta lit <= 1)%Qc -> 0 < mt -> 2 <= limit ->
  forall c f, ic_nd cf = 1 -> ic_nf cf = 0 -> (forall w t x, ic_rhs cf w t x = osc_rhs (N:=QcNum) c f t x) -> (0 <= c)%Qc ->
  forall count (s s' : ist QcNum W P (perf QcNum (S:=LUModel.lu))), fresh_start cf s -> em_alpha (i_map s) = qc 1 2 ->
  i_steps no_events (plain_newton (N:=QcNum) (simple_dd dx None) lit mt limit) cf count s = Some s' -> osc_energy c f (em_x (i_map s')) = osc_energy c f (em_x (i_map s)).
Proof. exact @osc_conserves. Qed.
Print Assumptions C66_conserves.

(** C67: two solutions of the stiff equation, whatever function stands for the cosine, approach each other by one factor per step: with the Euler method, *)
Theorem C67_euler : forall cosine a h (W : Type) t0 x0 y0 (s0 r0 : rkst QcNum W) count, length x0 = 1 -> length y0 = 1 ->
  exists s r ps pr, rk_steps (N:=QcNum) no_events (fun _ => stiff_rhs (N:=QcNum) cosine a) tab_euler 1 h count (rk_set (N:=QcNum) no_events t0 x0 s0) = Ret (s, ps) /\
    rk_steps (N:=QcNum) no_events (fun _ => stiff_rhs (N:=QcNum) cosine a) tab_euler 1 h count (rk_set (N:=QcNum) no_events t0 y0 r0) = Ret (r, pr) /\
    rk_t s = (t0 + qn count * h)%Qc /\ rk_t r = (t0 + qn count * h)%Qc /\ (cmp_ (rk_x s) 0 - cmp_ (rk_x r) 0 = qpow (1 - h * a) count * (cmp_ x0 0 - cmp_ y0 0))%Qc.
Proof. exact stiff_run_euler. Qed.
Print Assumptions C67_euler.
(** with the classical Runge-Kutta method, *)
Theorem C67_rk4 : forall cosine a h (W : Type) t0 x0 y0 (s0 r0 : rkst QcNum W) count, length x0 = 1 -> length y0 = 1 ->
  exists s r ps pr, rk_steps (N:=QcNum) no_events (fun _ => stiff_rhs (N:=QcNum) cosine a) tab_rk4 1 h count (rk_set (N:=QcNum) no_events t0 x0 s0) = Ret (s, ps) /\
    rk_steps (N:=QcNum) no_events (fun _ => stiff_rhs (N:=QcNum) cosine a) tab_rk4 1 h count (rk_set (N:=QcNum) no_events t0 y0 r0) = Ret (r, pr) /\
    rk_t s = (t0 + qn count * h)%Qc /\ rk_t r = (t0 + qn count * h)%Qc /\ (cmp_ (rk_x s) 0 - cmp_ (rk_x r) 0 = qpow (rk4_decay a h) count * (cmp_ x0 0 - cmp_ y0 0))%Qc.
Proof. exact stiff_run_rk4. Qed.
Print Assumptions C67_rk4.
(** and with the implicit method. *)
Theorem C67_implicit : forall (W P : Type) (cf : icfg QcNum W P) (dx : Qc) (lit : ls_lit QcNum) (mt limit : nat),
  (forall t x w, ic_before cf t x w = Ret w) -> ic_ord cf = None -> ic_pred cf = None -> dx <> 0%Qc -> (l_eta lit <= 1)%Qc -> 0 < mt -> 2 <= limit ->
  forall cosine a, ic_nd cf = 0 -> ic_nf cf = 1 -> (forall w t x, ic_rhs cf w t x = stiff_rhs (N:=QcNum) cosine a t x) ->
  forall count (s r : ist QcNum W P (perf QcNum (S:=LUModel.lu))), fresh_start cf s -> fresh_start cf r ->
  let al := em_alpha (i_map s) in let h := ic_h cf in let nw := plain_newton (N:=QcNum) (simple_dd dx None) lit mt limit in
  em_t (i_map r) = em_t (i_map s) -> em_alpha (i_map r) = al -> (1 + h * al * a <> 0)%Qc ->
  exists s' r', i_steps no_events nw cf count s = Some s' /\ i_steps no_events nw cf count r = Some r' /\ em_t (i_map s') = (em_t (i_map s) + qn count * h)%Qc /\ em_t (i_map r') = em_t (i_map s') /\
    (qpow (1 + h * al * a) count * (cmp_ (em_x (i_map s')) 0 - cmp_ (em_x (i_map r')) 0) =
     qpow (1 - h * (1 - al) * a) count * (cmp_ (em_x (i_map s)) 0 - cmp_ (em_x (i_map r)) 0))%Qc.
Proof. exact @stiff_implicit. Qed.
Print Assumptions C67_implicit.
(** C67: so with al >= 1/2 and whatever step, two solutions do not move apart. *)
Theorem C67_contracts : forall (W P : Type) (cf : icfg QcNum W P) (dx : Qc) (lit : ls_lit QcNum) (mt limit : nat),
  (forall t x w, ic_before cf t x w = Ret w) -> ic_ord cf = None -> ic_pred cf = None -> dx <> 0%Qc -> (l_eta lit <= 1)%Qc -> 0 < mt -> 2 <= limit ->
  forall cosine a, ic_nd cf = 0 -> ic_nf cf = 1 -> (forall w t x, ic_rhs cf w t x = stiff_rhs (N:=QcNum) cosine a t x) -> (0 <= ic_h cf * a)%Qc ->
  forall count (s r s' r' : ist QcNum W P (perf QcNum (S:=LUModel.lu))), fresh_start cf s -> fresh_start cf r ->
  em_t (i_map r) = em_t (i_map s) -> em_alpha (i_map r) = em_alpha (i_map s) -> (1 <= em_alpha (i_map s) + em_alpha (i_map s))%Qc ->
  let nw := plain_newton (N:=QcNum) (simple_dd dx None) lit mt limit in
  i_steps no_events nw cf count s = Some s' -> i_steps no_events nw cf count r = Some r' ->
  (Qcabs (cmp_ (em_x (i_map s')) 0 - cmp_ (em_x (i_map r')) 0) <= Qcabs (cmp_ (em_x (i_map s)) 0 - cmp_ (em_x (i_map r)) 0))%Qc.
Proof. exact @stiff_contracts. Qed.
Print Assumptions C67_contracts.
