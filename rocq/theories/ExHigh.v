(** ExHigh.v - concrete cases and refutations for C75. *)
From Coq Require Import List Arith Bool ZArith QArith Qcanon Reals Lra Lia Qreals.
From Verif Require Import Base BaseFacts VecModel VOps RkModel RkSpec RkFacts RkFacts6 StepModel StepSpec ConvSpec ConvFacts ConvFacts2 ConvFacts3 ConvFacts4 ConvFacts5 HighSpec HighFacts5 HighFacts6 HighFacts7.
Import ListNotations.
Local Open Scope R_scope.

(** The conditions of C75 hold for the nonlinear equation x' = cos(x)^2 with the solution arctan t, up to order 4, on every interval. *)
Example C75_conditions : wf_table tab_rk4 4 1 /\ shortcut_ok tab_rk4 4 /\ order_conditions tab_rk4 4 0 4 /\ row_sums tab_rk4 4 /\ sized 1 cos2_rhs /\ lipschitz 1 1 cos2_rhs /\
  solves 1 cos2_rhs (fun t => [atan t]) 0 (0 + 1) /\ derivatives 1 4 cos2_rhs cos2_E /\ smooth_along 1 4 cos2_rhs (fun t => [atan t]) 0 (0 + 1).
Proof.
  split; [exact wf_rk4|]. split; [exact (sc_neg tab_rk4 4 eq_refl)|]. split; [exact ord_rk4|]. split; [exact rows_rk4|]. split; [exact cos2_sized|]. split; [exact cos2_lip|].
  split; [apply cos2_solution|]. split; [exact cos2_derivatives|]. apply cos2_smooth.
Qed.
(** The theorem at work: the Runge-Kutta solver computes arctan with fourth order. *)
Example C75_arctan : exists C, 0 <= C /\ forall h count, 0 < h -> INR count * h <= 1 ->
  exists s' posts, rk_steps (N:=RNum) no_events (rhs_of (W:=unit) cos2_rhs) (tabR tab_rk4) 1 h count (rk_set (N:=RNum) no_events 0 [0] (mkRk (N:=RNum) 0 [] None out_empty tt)) = Ret (s', posts) /\
    Rabs (cmpR (rk_x s') 0 - atan (INR count * h)) <= C * h ^ 4.
Proof.
  destruct C75_conditions as [H1 [H2 [H3 [H4 [H5 [H6 [H7 [_ H8]]]]]]]].
  destruct (order_exactly cos2_rhs 1 1 (fun t => [atan t]) 0 1 4 tab_rk4 4 ltac:(lia) H1 H2 H3 H4 H5 ltac:(lra) H6 ltac:(lra) H7 H8) as [C [C0 HC]].
  exists C. split; [exact C0|]. intros h count Hh HC1.
  assert (N0 : near 1 [0] [atan 0] 0). { intros [|j] Hj; [|lia]. unfold cmpR. simpl. rewrite atan_0, Rminus_eq_0, Rabs_R0. lra. }
  destruct (HC unit (mkRk (N:=RNum) 0 [] None out_empty tt) h count [0] 0 Hh HC1 eq_refl ltac:(lra) N0) as [s' [posts [E [ET N]]]].
  exists s', posts. split; [exact E|]. specialize (N 0%nat ltac:(lia)). rewrite ET, Rplus_0_l in N. rewrite Rplus_0_l in N. exact N.
Qed.
(** The order conditions matter: Euler's method (order 1) is not of order 2 on x' = x. *)
Lemma euler_path h : forall count t x s', path (tabR tab_euler) 1 1 0 (fun t x => Ret ((fun _ x => x) t x)) (t, x) (repeat h count) s' -> cmpR (snd s') 0 = cmpR x 0 * (1 + h) ^ count.
Proof.
  induction count as [|c I]; intros t x s' P; simpl repeat in P; apply path_inv in P.
  - subst s'. simpl. ring.
  - destruct P as [[t1 x1] [[_ [ev [k [[_ [_ S1]] [_ R1]]]]] P]]. rewrite (I t1 x1 s' P). simpl in R1. rewrite (R1 0%nat) by lia.
    destruct (S1 0%nat) as [a [_ [E [_ A]]]]; [lia|]. injection E as E. specialize (A 0%nat ltac:(lia)). cbn [rsum snd] in A |- *. rewrite <- E, A.
    assert (B : BR_ (tabR tab_euler) 1 0 0 = 1). { rewrite BR_tab. unfold q2r. simpl. apply RMicromega.Q2R_1. } rewrite B. simpl. ring.
Qed.
Lemma exp_grows h : 0 <= h -> forall c, INR c * (h * h / 4) <= exp (INR c * h) - (1 + h) ^ c.
Proof.
  intros Hh c. assert (E2 : 1 + h + h * h / 4 <= exp h).
  { replace h with (h / 2 + h / 2) at 4 by field. rewrite exp_plus. pose proof (exp_ineq1_le (h / 2)) as K.
    apply Rle_trans with ((1 + h / 2) * (1 + h / 2)); [right; field|]. apply Rmult_le_compat; lra. }
  induction c as [|c I]; [simpl; rewrite !Rmult_0_l, exp_0; lra|]. rewrite S_INR. replace ((INR c + 1) * h) with (INR c * h + h) by ring. rewrite exp_plus. simpl pow.
  set (a := exp (INR c * h)) in *. set (b := (1 + h) ^ c) in *. assert (B1 : 1 <= b) by (apply pow_R1_Rle; lra).
  assert (C0 : 0 <= INR c * (h * h / 4)) by (apply Rmult_le_pos; [apply pos_INR|]; assert (0 <= h * h) by (apply Rmult_le_pos; lra); lra).
  assert (H2 : 0 <= h * h / 4) by (assert (0 <= h * h) by (apply Rmult_le_pos; lra); lra).
  assert (A1 : a * (1 + h + h * h / 4) <= a * exp h) by (apply Rmult_le_compat_l; lra).
  assert (A2 : 0 <= h * (a - b)) by (apply Rmult_le_pos; lra). assert (A3 : 1 * (h * h / 4) <= a * (h * h / 4)) by (apply Rmult_le_compat_r; lra). lra.
Qed.
Theorem C75_euler_second_order_refuted : ~ (exists C, 0 <= C /\ forall h count, 0 < h -> INR count * h <= 1 ->
  exists s' posts, rk_steps (N:=RNum) no_events (rhs_of (W:=unit) (fun _ x => x)) (tabR tab_euler) 1 h count (rk_set (N:=RNum) no_events 0 [1] (mkRk (N:=RNum) 0 [] None out_empty tt)) = Ret (s', posts) /\
    Rabs (cmpR (rk_x s') 0 - exp (INR count * h)) <= C * h ^ 2).
Proof.
  intros [C [C0 HC]]. destruct (archimed C) as [A1 _]. assert (ZP : (0 <= up C)%Z) by (apply le_IZR; lra). set (m := S (4 * Z.to_nat (up C))).
  assert (M1 : 4 * C + 1 <= INR m). { unfold m. rewrite S_INR, mult_INR, (INR_IZR_INZ (Z.to_nat (up C))), Z2Nat.id by assumption. simpl. lra. }
  assert (P : 0 < INR m) by lra. assert (Q : INR m * / INR m = 1) by (apply Rinv_r; lra). set (h := / INR m) in *. assert (Hh : 0 < h) by (apply Rinv_0_lt_compat; assumption).
  destruct (HC h m Hh ltac:(lra)) as [s' [posts [E N]]].
  destruct (fixed_path (rhs_of (fun _ x => x)) (tabR tab_euler) 1 1 h (wf_tab _ _ _ wf_euler) (sc_tab _ _ (sc_neg tab_euler 1 eq_refl)) tt 0 [1] (mkRk (N:=RNum) 0 [] None out_empty tt) m
     (good_of 1 (fun _ x => x) tt (fun t x L => L)) eq_refl eq_refl) as [s2 [posts2 [E2 PT]]].
  rewrite E in E2. injection E2 as <- _. pose proof (euler_path h m 0 [1] _ PT) as V. cbn [snd] in V. unfold cmpR at 2 in V. simpl nth in V. rewrite Rmult_1_l in V. rewrite V in N.
  pose proof (exp_grows h ltac:(lra) m) as G. assert (H2 : 0 < h * h) by (apply Rmult_lt_0_compat; assumption).
  assert (G0 : 0 <= INR m * (h * h / 4)) by (apply Rmult_le_pos; lra). rewrite Rabs_minus_sym, Rabs_right in N by lra.
  assert (K : INR m * (h * h / 4) = h / 4) by (replace (INR m * (h * h / 4)) with ((INR m * h) * h / 4) by field; rewrite Q; field). rewrite K in G.
  assert (L : h / 4 <= C * (h * h)) by (replace (h ^ 2) with (h * h) in N by ring; lra).
  assert (L2 : h / 4 * INR m <= C * (h * h) * INR m) by (apply Rmult_le_compat_r; lra).
  replace (h / 4 * INR m) with (INR m * h / 4) in L2 by field. replace (C * (h * h) * INR m) with (C * (INR m * h) * h) in L2 by ring. rewrite Q in L2.
  assert (L3 : 1 / 4 * INR m <= C * 1 * h * INR m) by (apply Rmult_le_compat_r; lra). replace (C * 1 * h * INR m) with (C * (INR m * h)) in L3 by ring. rewrite Q in L3. lra.
Qed.
Print Assumptions C75_euler_second_order_refuted.
