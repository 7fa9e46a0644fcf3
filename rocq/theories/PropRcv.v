(** PropRcv.v - C81: the Rosenbrock solvers converge.  Vocabulary: RcvSpec.v (w1_path, sw_path, stiffness), RosSpec.v (r_safe, w1_reach, sw_reach), ConvSpec.v (near, lipschitz_x, solves, total), ImcSpec.v (toR, computes_rhs, slope_changes, curvature_changes). *)
From Coq Require Import List Arith Bool ZArith QArith Qcanon Reals.
From Verif Require Import Base VecModel VOps LUSpec RkModel RkSpec StepModel RosModel RosSpec ConvSpec ImcSpec RcvSpec RcvFacts3 RcvFacts4.
Import ListNotations.
Local Open Scope R_scope.
(** W1 started afresh, with any step sizes up to H: the error is at most e^(2LT) times the initial error plus a multiple of H.  L is the Lipschitz constant of the
    right-hand side, K bounds the second derivative of the solution and F its first one; H is so small that H d (1 + nL) <= 1/2.  The Jacobian is the one
    computed in the first step and is kept for the whole run, without the columns of the last n2 variables. *)
Theorem C81_w1 : forall (W : Type) (ev : events QcNum W) (c : rcfg W) f, r_safe ev c f -> forall g X L F K ts T H,
  computes_rhs (rc_n c) f g -> 0 <= L -> lipschitz_x (rc_n c) L g -> 0 <= K -> 0 <= F -> ConvSpec.solves (rc_n c) g X ts (ts + T) -> slope_changes (rc_n c) g X ts (ts + T) K ->
  (forall t j, ts <= t <= ts + T -> (j < rc_n c)%nat -> Rabs (cmpR (g t (X t)) j) <= F) -> rc_d c <> 0%Qc -> H * stiffness c L <= / 2 ->
  forall s l s' d, w1_reach ev c s -> q_k s = 0%nat -> w1_path ev c s l s' -> Forall (fun h => 0 < q2r h <= H) l -> total (map q2r l) <= T -> 0 <= H ->
  q2r (q_t s) = ts -> 0 <= d -> near (rc_n c) (toR (q_x s)) (X ts) d ->
  q2r (q_t s') = ts + total (map q2r l) /\ near (rc_n c) (toR (q_x s')) (X (q2r (q_t s'))) (exp (2 * L * T) * (d + T * (K + 2 * stiffness c L * F) * H)).
Proof. exact @w1_converges. Qed.
Print Assumptions C81_w1.
(** SW2(4) when every first attempt is accepted: the error is a multiple of H^2 (M bounds the third derivative of the solution). *)
Theorem C81_sw_second : forall (W : Type) (ev : events QcNum W) (c : rcfg W) f, r_safe ev c f -> forall g X A L F K M ts T H,
  computes_rhs (rc_n c) f g -> 0 <= L -> lipschitz_x (rc_n c) L g -> 0 <= K -> 0 <= F -> ConvSpec.solves (rc_n c) g X ts (ts + T) -> slope_changes (rc_n c) g X ts (ts + T) K ->
  (forall t j, ts <= t <= ts + T -> (j < rc_n c)%nat -> Rabs (cmpR (g t (X t)) j) <= F) -> rc_d c <> 0%Qc -> H * stiffness c L <= / 2 -> 0 <= M -> curvature_changes (rc_n c) g X A ts (ts + T) M ->
  forall s l s' d, sw_reach ev c s -> q_k s = 0%nat -> sw_path ev c s l s' -> Forall (fun p => 0 < q2r (fst p) <= H /\ 0 < q2r (snd p) <= H) l -> Forall (fun p => fst p = snd p) l ->
  total (map q2r (map snd l)) <= T -> 0 <= H -> q2r (q_t s) = ts -> 0 <= d -> near (rc_n c) (toR (q_x s)) (X ts) d ->
  q2r (q_t s') = ts + total (map q2r (map snd l)) /\ near (rc_n c) (toR (q_x s')) (X (q2r (q_t s')))
    (exp ((2 * L + 3 / 2 * L * (1 + 2 * T * L)) * T) * (d + T * (3 / 2 * L * (2 * stiffness c L * F + K) + 3 / 2 * K * stiffness c L + 4 * stiffness c L * stiffness c L * F + 4 / 3 * M) * (H * H))).
Proof. exact @sw_converges. Qed.
Print Assumptions C81_sw_second.
(** With refused attempts, whose decomposition is kept (C45), the order is one. *)
Theorem C81_sw_first : forall (W : Type) (ev : events QcNum W) (c : rcfg W) f, r_safe ev c f -> forall g X A L F K M ts T H,
  computes_rhs (rc_n c) f g -> 0 <= L -> lipschitz_x (rc_n c) L g -> 0 <= K -> 0 <= F -> ConvSpec.solves (rc_n c) g X ts (ts + T) -> slope_changes (rc_n c) g X ts (ts + T) K ->
  (forall t j, ts <= t <= ts + T -> (j < rc_n c)%nat -> Rabs (cmpR (g t (X t)) j) <= F) -> rc_d c <> 0%Qc -> H * stiffness c L <= / 2 -> 0 <= M -> curvature_changes (rc_n c) g X A ts (ts + T) M ->
  forall s l s' d, sw_reach ev c s -> q_k s = 0%nat -> sw_path ev c s l s' -> Forall (fun p => 0 < q2r (fst p) <= H /\ 0 < q2r (snd p) <= H) l ->
  total (map q2r (map snd l)) <= T -> 0 <= H -> q2r (q_t s) = ts -> 0 <= d -> near (rc_n c) (toR (q_x s)) (X ts) d ->
  q2r (q_t s') = ts + total (map q2r (map snd l)) /\ near (rc_n c) (toR (q_x s')) (X (q2r (q_t s')))
    (exp ((5 * L + 3 / 2 * L * (1 + 2 * T * L)) * T) * (d + T * (3 / 2 * L * (2 * stiffness c L * F + K) * T + 6 * stiffness c L * F + K + 4 / 3 * M * T) * H)).
Proof. exact @sw_converges_first. Qed.
Print Assumptions C81_sw_first.
(** The runs exist: for any list of positive sizes with h d <= 1 and h d (1 + nL) <= 1/2 every step succeeds, when no event cuts steps short and the pattern of the first Jacobian keeps the fill-in of the decomposition. *)
Theorem C81_w1_runs : forall (W : Type) (ev : events QcNum W) (c : rcfg W) f, r_safe ev c f -> (forall x1 x2 t2 w w' e, ev_end ev x1 x2 t2 w = Ret (w', e) -> ev_trunc e = false) ->
  forall g L, computes_rhs (rc_n c) f g -> 0 <= L -> lipschitz_x (rc_n c) L g -> rc_d c <> 0%Qc ->
  forall s l, w1_reach ev c s -> q_k s = 0%nat -> let r := q_ros (fst (q_init c true s)) in stencil_covers (w_stencil (ro_m r) (J1_ r) (J2_ r)) (ro_m r) ->
  Forall (fun h => 0 < q2r h /\ Rabs (q2r (h * rc_d c)%Qc) <= 1 /\ q2r h * stiffness c L <= / 2) l -> exists s', w1_path ev c s l s'.
Proof. exact @w1_runs. Qed.
Print Assumptions C81_w1_runs.
(** The same for SW2(4) without error control. *)
Theorem C81_sw_runs : forall (W : Type) (ev : events QcNum W) (c : rcfg W) f, r_safe ev c f -> (forall x1 x2 t2 w w' e, ev_end ev x1 x2 t2 w = Ret (w', e) -> ev_trunc e = false) ->
  forall g L, computes_rhs (rc_n c) f g -> 0 <= L -> lipschitz_x (rc_n c) L g -> rc_d c <> 0%Qc -> rc_nocheck c = true ->
  forall s l, sw_reach ev c s -> q_k s = 0%nat -> let r := q_ros (fst (q_init c false s)) in stencil_covers (w_stencil (ro_m r) (J1_ r) (J2_ r)) (ro_m r) ->
  Forall (fun h => 0 < q2r h /\ Rabs (q2r (h * rc_d c)%Qc) <= 1 /\ q2r h * stiffness c L <= / 2) l -> exists s', sw_path ev c s (map (fun h => (h, h)) l) s'.
Proof. exact @sw_runs. Qed.
Print Assumptions C81_sw_runs.
