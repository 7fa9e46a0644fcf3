(** ExConv.v - concrete cases and refutations for C73 and C74. *)
From Coq Require Import List Arith Bool ZArith QArith Qcanon Reals Lra Lia Qreals.
From Verif Require Import Base BaseFacts VecModel VOps RkModel RkSpec RkFacts RkFacts6 StepModel StepSpec ConvSpec ConvFacts ConvFacts2 ConvFacts3 ConvFacts4 ConvFacts5.
Import ListNotations.
Local Open Scope R_scope.

(** x' = x with the solution exp t, one variable, any interval: the conditions of C73 and C74 hold with L = 1, M = exp 1 on [0, 1]. *)
Definition idf : R -> list R -> list R := fun _ x => x.
Definition expX : R -> list R := fun t => [exp t].
Lemma id_lip n : lipschitz n 1 idf.
Proof. intros t s x y d Lx Ly N j Hj. specialize (N j Hj). pose proof (Rabs_pos (t - s)). unfold idf. lra. Qed.
Lemma exp_solves t0 t1 : solves 1 idf expX t0 t1.
Proof. intros t _. split; [reflexivity|]. intros [|j] Hj; [|lia]. unfold idf, expX, cmpR. simpl. apply derivable_pt_lim_exp. Qed.
Example C74_conditions : wf_table (tabR tab_rk4) 4 1 /\ shortcut_ok (tabR tab_rk4) 4 /\ consistent (tabR tab_rk4) 4 0 0 /\ sized 1 idf /\ lipschitz_x 1 1 idf /\ lipschitz 1 1 idf /\
  solves 1 idf expX 0 (0 + 1) /\ (forall t j, 0 <= t <= 0 + 1 -> (j < 1)%nat -> Rabs (cmpR (idf t (expX t)) j) <= exp 1).
Proof.
  destruct real_tables as [_ [[H1 [H2 H3]] _]]. split; [exact H1|]. split; [exact H2|]. split; [exact H3|]. split; [intros t x Lx; exact Lx|].
  split; [apply lip_x, id_lip|]. split; [apply id_lip|]. split; [apply exp_solves|]. intros t [|j] Ht Hj; [|lia]. unfold idf, expX, cmpR. simpl.
  rewrite Rabs_right by (left; apply exp_pos). destruct (Rle_lt_or_eq_dec t 1) as [H|H]; [lra|left; apply exp_increasing; assumption|rewrite H; lra].
Qed.
(** The theorem at work: the Runge-Kutta solver approximates the number e. *)
Example C74_euler_number : exists C, 0 <= C /\ forall count, (0 < count)%nat ->
  exists s' posts, rk_steps (N:=RNum) no_events (rhs_of (W:=unit) idf) (tabR tab_rk4) 1 (/ INR count) count (rk_set (N:=RNum) no_events 0 [1] (mkRk (N:=RNum) 0 [] None out_empty tt)) = Ret (s', posts) /\
    Rabs (cmpR (rk_x s') 0 - exp 1) <= C / INR count.
Proof.
  destruct C74_conditions as [H1 [H2 [H3 [H4 [_ [H5 [H6 _]]]]]]].
  destruct (convergence idf 1 1 expX 0 1 (tabR tab_rk4) 4 H1 H2 H3 H4 ltac:(lra) H5 ltac:(lra) H6) as [C [C0 HC]]. exists C. split; [exact C0|]. intros count Hc.
  assert (P : 0 < INR count) by (apply lt_0_INR; assumption). assert (Q : INR count * / INR count = 1) by (apply Rinv_r; lra).
  assert (N0 : near 1 [1] (expX 0) 0). { intros [|j] Hj; [|lia]. unfold expX, cmpR. simpl. rewrite exp_0, Rminus_eq_0, Rabs_R0. lra. }
  destruct (HC unit (mkRk (N:=RNum) 0 [] None out_empty tt) (/ INR count) count [1] 0 (Rinv_0_lt_compat _ P) ltac:(lra) eq_refl ltac:(lra) N0) as [s' [posts [E [ET N]]]].
  exists s', posts. split; [exact E|]. specialize (N 0%nat ltac:(lia)). rewrite ET, Q in N. unfold expX in N. rewrite Rplus_0_l in N. unfold cmpR at 2 in N. simpl nth in N.
  rewrite Rplus_0_l in N. exact N.
Qed.
(** A table whose weights do not sum up to 1 (Euler's with b = 2) is stable but does not converge. *)
Definition bad_table : coeffs RNum := mkCo (N:=RNum) [] [2] [] (-1)%Z.
Lemma bad_path t x l s' : path bad_table 1 1 0 (fun t x => Ret ((fun _ _ => [1]) t x)) (t, x) l s' -> cmpR (snd s') 0 = cmpR x 0 + 2 * total l.
Proof.
  revert t x s'. induction l as [|h l I]; intros t x s' P; apply path_inv in P.
  - subst s'. simpl. ring.
  - destruct P as [[t1 x1] [[_ [ev [k [[_ [_ S1]] [_ R1]]]]] P]]. rewrite (I t1 x1 s' P). simpl in R1. rewrite (R1 0%nat) by lia.
    destruct (S1 0%nat) as [a [_ [E _]]]; [lia|]. injection E as E. cbn [rsum snd]. rewrite <- E. unfold BR_, bad_table, cmpR. simpl. ring.
Qed.
Theorem C74_inconsistent_refuted : ~ (forall f n L X t0 T co stages, wf_table co stages 1 -> shortcut_ok co stages ->
  sized n f -> 0 <= L -> lipschitz n L f -> 0 <= T -> solves n f X t0 (t0 + T) ->
  exists C, 0 <= C /\ forall (W : Type) (s0 : rkst RNum W) h count x0 d, 0 < h -> INR count * h <= T -> length x0 = n -> 0 <= d -> near n x0 (X t0) d ->
  exists s' posts, rk_steps (N:=RNum) no_events (rhs_of f) co n h count (rk_set (N:=RNum) no_events t0 x0 s0) = Ret (s', posts) /\
    rk_t s' = t0 + INR count * h /\ near n (rk_x s') (X (rk_t s')) (C * (d + h))).
Proof.
  intros H. assert (WF : wf_table bad_table 1 1) by (unfold wf_table; simpl; repeat split; lia). assert (SC : shortcut_ok bad_table 1) by (left; simpl; lia).
  assert (SZ : sized 1 (fun _ _ => [1])) by (intros t x _; reflexivity).
  destruct (H (fun _ _ => [1]) 1%nat 0 (fun t => [t]) 0 1 bad_table 1%nat WF SC SZ) as [C [C0 HC]]; [lra| |lra| |].
  - intros t s x y d _ _ _ j Hj. rewrite Rminus_eq_0, Rabs_R0. lra.
  - intros t _. split; [reflexivity|]. intros [|j] Hj; [|lia]. unfold cmpR. simpl. apply derivable_pt_lim_id.
  - destruct (archimed C) as [A1 _]. assert (ZP : (0 <= up C)%Z) by (apply le_IZR; lra). set (m := S (Z.to_nat (up C))).
    assert (M1 : C + 1 <= INR m). { unfold m. rewrite S_INR, INR_IZR_INZ, Z2Nat.id by assumption. lra. }
    assert (P : 0 < INR m) by lra. assert (Q : INR m * / INR m = 1) by (apply Rinv_r; lra).
    destruct (HC unit (mkRk (N:=RNum) 0 [] None out_empty tt) (/ INR m) m [0] 0 (Rinv_0_lt_compat _ P) ltac:(lra) eq_refl ltac:(lra)) as [s' [posts [E [ET N]]]].
    { intros [|j] Hj; [|lia]. unfold cmpR. simpl. rewrite Rminus_eq_0, Rabs_R0. lra. }
    destruct (fixed_path (rhs_of (fun _ _ => [1])) bad_table 1 1 (/ INR m) WF SC tt 0 [0] (mkRk (N:=RNum) 0 [] None out_empty tt) m (good_of 1 _ tt SZ) eq_refl eq_refl) as [s2 [posts2 [E2 PT]]].
    rewrite E in E2. injection E2 as <- _. pose proof (bad_path 0 [0] _ _ PT) as V. rewrite total_repeat, Q in V. unfold cmpR at 2 in V. simpl in V.
    specialize (N 0%nat ltac:(lia)). rewrite ET, Q in N. change (cmpR [0 + 1] 0) with (0 + 1) in N. rewrite V in N. replace (0 + 2 * 1 - (0 + 1)) with 1 in N by ring. rewrite Rabs_R1, Rplus_0_l in N.
    assert (K : 1 * INR m <= C * / INR m * INR m) by (apply Rmult_le_compat_r; lra). rewrite Rmult_assoc, (Rmult_comm (/ INR m)), Q in K. lra.
Qed.
(** C73: Euler's method on x' = x multiplies the difference of two runs by exactly 1 + h per step: the growth factor is attained. *)
Example C73_growth_euler h : growth (tabR tab_euler) 1 0 1 h = 1.
Proof.
  unfold growth. simpl rsum. assert (B : BR_ (tabR tab_euler) 1 0 0 = 1). { rewrite BR_tab. unfold q2r. simpl. apply RMicromega.Q2R_1. }
  rewrite B, Rabs_R1. simpl. lra.
Qed.
(** C73: the reference sequence of the exact solution: the conditions of C73_errors_accumulate hold for the run itself, with errors 0. *)
Example C73_reference_case : length [1] = 1%nat /\ near 1 [1] [1] 0 /\ exists y, one_step idf (tabR tab_euler) 1 1 0 [1] = Ret y /\ near 1 y [2] 0.
Proof.
  split; [reflexivity|]. split; [intros j _; rewrite Rminus_eq_0, Rabs_R0; lra|].
  destruct real_tables as [[H1 [H2 _]] _].
  destruct (rk_steps_path (rhs_of (W:=unit) idf) (tabR tab_euler) 1 1 1 H1 H2 tt (good_of 1 idf tt (fun t x L => L)) 1 (mkRk (N:=RNum) 0 [1] None out_empty tt)) as [s' [posts [E1 [_ P]]]];
    [reflexivity|split; [reflexivity|left; reflexivity]|].
  exists (rk_x s'). split; [unfold one_step; rewrite E1; reflexivity|]. simpl repeat in P. apply path_inv in P. destruct P as [s1 [TS P1]]. apply path_inv in P1. subst s1.
  destruct TS as [_ [ev [k [[_ [_ S1]] [_ R1]]]]]. intros [|j] Hj; [|lia]. simpl in R1. rewrite (R1 0%nat) by lia.
  destruct (S1 0%nat) as [a [_ [E [_ A]]]]; [lia|]. injection E as E. specialize (A 0%nat ltac:(lia)). simpl rsum in A |- *. rewrite <- E. unfold idf. rewrite A.
  assert (B : BR_ (tabR tab_euler) 1 0 0 = 1). { rewrite BR_tab. unfold q2r. simpl. apply RMicromega.Q2R_1. }
  rewrite B. unfold cmpR. simpl. replace (1 + 1 * (0 + 1 * (1 + 1 * 0)) - 2) with 0 by ring. rewrite Rabs_R0. lra.
Qed.
(** C74: a run of the adaptive DOPRI 5(4) solver with the accuracy check switched off, on x' = x: one accepted step of size 1/2. *)
Definition cfg45 : erkcfg RNum := mkErk (N:=RNum) (tabR tab_dopri45) 1 (/ 2) (/ 1000) 0 true false 0 (fun _ => Ret 0) (fun h _ => (h, true, false)).
Lemma erk_step_one {N : Num} {W : Type} (ev : events N W) f c s s1 a : erk_attempt ev f c s = (s1, AAccepted a) -> erk_step ev f c 1 s = (s1, [a], Some (AAccepted a)).
Proof. intros E. simpl. rewrite E. reflexivity. Qed.
Example C74_adaptive_case : exists s', adaptive_run (rhs_of (W:=unit) idf) cfg45 (erk_set (N:=RNum) no_events 0 [1] (mkRk (N:=RNum) 0 [] None out_empty tt)) [/ 2] s' /\
  Forall (fun h => 0 < h <= / 2) [/ 2] /\ total [/ 2] <= 1.
Proof.
  destruct real_tables as [_ [_ [[H1 [H2 _]] _]]].
  destruct (compute_allR (tabR tab_dopri45) 7 1 2 (rhs_of (W:=unit) idf tt) [1] 0 (/ 2) (out_new (N:=RNum) 7 1 2) H1 H2 (good_of 1 idf tt (fun t x L => L)) eq_refl (RkFacts3.out_new_shaped 7 1 2))
    as [o' [evals [EC [[Sk [Sx [Sb [Uk Ux]]]] _]]]]. change (nT RNum) with R in *.
  assert (EA : exists s1 a, erk_attempt (N:=RNum) no_events (rhs_of (W:=unit) idf) cfg45 (erk_set (N:=RNum) no_events 0 [1] (mkRk (N:=RNum) 0 [] None out_empty tt)) = (s1, AAccepted a) /\ pa_h a = / 2).
  { unfold erk_attempt. cbn [erk_set erk_init rk_out out_is_empty out_empty o_k rk_h rk_x rk_t rk_w cfg45 e_hinit ev_start no_events fail].
    change (length (co_c (e_co cfg45)) + 1)%nat with 7%nat. change (e_n cfg45) with 1%nat. change (e_co cfg45) with (tabR tab_dopri45). change (ev_reset no_events tt) with tt.
    match goal with |- context [rk_compute ?o ?c ?g ?x ?t ?h] => change (rk_compute o c g x t h) with (rk_compute (N:=RNum) (out_new (N:=RNum) 7 1 2) (tabR tab_dopri45) (rhs_of (W:=unit) idf tt) [1] 0 (/ 2)) end.
    change (nT RNum) with R in *. rewrite EC. cbn [fail fst snd e_mode]. unfold fail at 1. cbn [fst snd]. change (e_mode cfg45) with 0%nat.
    rewrite (rd_ok (A:=list R) (o_x2 o') 0 []) by (exact (eq_ind_r (fun m => (0 < m)%nat) (Nat.lt_0_succ 1) Sx)). cbn [fail erk_error e_nocheck e_force negb orb ev_end no_events].
    rewrite (wr_ok (A:=list R) (o_x2 o') 0) by (exact (eq_ind_r (fun m => (0 < m)%nat) (Nat.lt_0_succ 1) Sx)). cbn [fail andb]. eexists _, _. split; [reflexivity|]. reflexivity. }
  destruct EA as [s1 [a [EA HA]]]. exists s1. split.
  - rewrite <- HA. apply (run_step _ _ _ 1%nat s1 [a] a [] s1); [exact (erk_step_one _ _ _ _ _ _ EA)|constructor].
  - split; [constructor; [lra|constructor]|simpl; lra].
Qed.
