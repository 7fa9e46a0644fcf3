(** ExIeee.v - concrete cases and a refutation for C89. *)
From Coq Require Import List Arith Lia ZArith QArith Qcanon Reals Lra.
From Flocq Require Import Core IEEE754.BinarySingleNaN.
From Verif Require Import Base BaseFacts VecModel VOps RkModel RkSpec RkFacts RkFacts2 RkFacts3 RkFacts6 StepModel StepSpec ConvSpec ConvFacts ConvFacts3 ConvFacts4 ConvFacts5 HighSpec HighFacts5 HighFacts6 HighFacts7 ExConv ExHigh FpSpec FpFacts FpFacts4 FpFacts6 FpFacts5 IeeeSpec IeeeFacts IeeeFacts2 IeeeFacts4 PropIeee.
Import ListNotations.
Local Open Scope R_scope.

(** x' = x as a linear system with the solution exp t. *)
Definition one_matrix (i j : nat) : R := 1.
Definition one_matrixD (i j : nat) : double := Bone.
Lemma lin_exp t y : cmpR (linearR 1 one_matrix t y) 0 = cmpR y 0.
Proof. unfold linearR, one_matrix, cmpR. cbn [seq map nth rsum]. unfold cmpR. ring. Qed.
Lemma lin_solves t0 t1 : solves 1 (linearR 1 one_matrix) expX t0 t1.
Proof. intros t _. split; [reflexivity|]. intros [|j] Hj; [|lia]. rewrite lin_exp. unfold expX, cmpR. simpl. apply derivable_pt_lim_exp. Qed.
Lemma exp_le t : 0 <= t <= 1 -> 0 < exp t <= 3.
Proof. intros Ht. split; [apply exp_pos|]. apply Rle_trans with (exp 1); [|apply exp_le_3]. destruct (Rle_lt_or_eq_dec t 1 (proj2 Ht)) as [H|H]; [left; apply exp_increasing; exact H|rewrite H; lra]. Qed.
Lemma b64_le1 r : Rabs r <= 1 -> Rabs (binary64 r) <= 1.
Proof.
  intros H. apply Rabs_le. apply Rabs_def2b in H || apply Rabs_le_inv in H. split; [|rewrite <- b64_1; apply b64_mono; lra].
  assert (E : binary64 (- (1)) = - (1)) by (unfold binary64; rewrite round_NE_opp; fold (binary64 1); rewrite b64_1; reflexivity). rewrite <- E. apply b64_mono. lra.
Qed.
Lemma rk4_size : table_size 1 (tabR tab_rk4).
Proof.
  assert (EN : entries_upto tab_rk4 (qc 1 1)) by (apply entries_sound; vm_compute; reflexivity). unfold entries_upto in EN. rewrite Forall_forall in EN.
  assert (P : forall e, In e (co_a tab_rk4 ++ co_b tab_rk4 ++ co_c tab_rk4) -> Rabs (binary64 (q2r e)) <= 1).
  { intros e He. apply b64_le1. replace 1 with (q2r (qc 1 1)) by apply q2r_1. apply q2r_abs. apply EN. exact He. }
  intros a Ha. unfold tabR in Ha. cbn [co_a co_b co_c] in Ha.
  destruct Ha as [H|[H|H]]; apply in_map_iff in H; destruct H as (e & <- & He); apply P; rewrite !in_app_iff; tauto.
Qed.
(** Four-stage Runge-Kutta in doubles computes the exponential function: with steps of at most 1/1024, and as long as the bound is below 1, no infinity and no NaN is met and the error is at
    most C (h^4 + (count + 1) (2^-53 + 2^-1075)). *)
Example C89_exponential : exists C, 0 <= C /\ forall hD h count, 0 < h <= / 1024 -> holds hD h -> INR count * h <= 1 -> INR count * (/ 2 ^ 53 + / 2 ^ 1075) <= 1 ->
  C * (h ^ 4 + (INR count + 1) * (/ 2 ^ 53 + / 2 ^ 1075)) <= 1 ->
  exists s' posts t x, rk_steps (N:=DNum) no_events (rhs_ofD (W:=unit) (linearD 1 one_matrixD)) (tabD (tabR tab_rk4)) 1 hD count
      (rk_set (N:=DNum) no_events dzero [Bone] (mkRk (N:=DNum) dzero [] None out_empty tt)) = Ret (s', posts) /\
    holds (rk_t s') t /\ holdsV 1 (rk_x s') x /\ Rabs (cmpR x 0 - exp (INR count * h)) <= C * (h ^ 4 + (INR count + 1) * (/ 2 ^ 53 + / 2 ^ 1075)).
Proof.
  destruct C75_conditions as [H1 [H2 [H3 [H4 _]]]].
  destruct (C89_linear 1 one_matrix 1 expX 0 1 4 tab_rk4 4 0%Qc ltac:(lia) H1 H2 (order_exact _ _ _ _ H3 H4) ltac:(discriminate) ltac:(lra) ltac:(intros; unfold one_matrix; rewrite Rabs_R1; lra)
    ltac:(simpl; lra) ltac:(simpl; lra) ltac:(lra) (lin_solves _ _)) as (C & C0 & HC).
  exists C. split; [exact C0|]. intros hD h count Hh HH CT CW HE. set (w := / 2 ^ 53 + / 2 ^ 1075) in *.
  assert (O1 : holds Bone 1) by (split; [reflexivity|apply Bone_correct]).
  assert (MH : matrix_holds 1 1 one_matrixD one_matrix) by (intros i j _ _; split; [exact O1|unfold one_matrix; rewrite Rabs_R1; lra]).
  assert (B10 : 2 ^ 10 <= 2 ^ 1000) by (apply Rle_pow; [lra|lia]). replace (2 ^ 10) with 1024 in B10 by (simpl; lra).
  assert (EH : C * (0 + h ^ 4 + q2r 0%Qc + (INR count + 1) * w) = C * (h ^ 4 + (INR count + 1) * w)) by (rewrite q2r_0; ring).
  pose proof u_small as [U0 U1]. unfold U in *.
  destruct (HC unit one_matrixD (mkRk (N:=DNum) dzero [] None out_empty tt) hD h count dzero [Bone] [1] 0 1 4 MH rk4_size ltac:(lra) ltac:(lra) HH d_zero) as (s' & posts & t & x & Q1 & Q2 & Q3 & _ & Q5); cbv zeta; try rewrite EH; simpl INR.
  - split; [reflexivity|]. split; [reflexivity|]. intros [|j] Hj; [|lia]. exact O1.
  - exact CT.
  - exact CW.
  - lra.
  - intros [|j] Hj; [|lia]. unfold expX, cmpR. simpl. rewrite exp_0, Rminus_eq_0, Rabs_R0. lra.
  - rewrite Rabs_pos_eq by lra. lra.
  - assert (2 ^ 3 <= 2 ^ 40) by (apply Rle_pow; [lra|lia]). simpl (2 ^ 3) in H. lra.
  - exact HE.
  - intros t Ht [|j] Hj; [|lia]. unfold expX, cmpR. simpl nth. pose proof (exp_le t ltac:(lra)). rewrite Rabs_pos_eq by lra. fold w. lra.
  - lra.
  - unfold state_size, term_size. rewrite Rabs_pos_eq by lra. simpl INR. lra.
  - lra.
  - unfold time_size. rewrite Rabs_R0, Rabs_pos_eq by lra. fold w. lra.
  - exists s', posts, t, x. split; [exact Q1|]. split; [exact Q2|]. split; [exact Q3|]. cbv zeta in Q5. rewrite EH in Q5. specialize (Q5 0%nat ltac:(lia)). rewrite Rplus_0_l in Q5. exact Q5.
Qed.
(** C89_adaptive: a run of the adaptive DOPRI 5(4) solver in doubles with the accuracy check switched off, on x' = 1: one accepted step of size 1/2; and the conditions on the table, the
    right-hand side and the sizes. *)
Definition one_D (t : double) (x : list double) : list double := [Bone].
Definition one_R (t : R) (x : list R) : list R := [1].
Definition cfg45D : erkcfg DNum := mkErk (N:=DNum) (tabD (tabR tab_dopri45)) 1 (toD (/ 2)) dzero 0 true false dzero (fun _ => Ret dzero) (fun h _ => (h, true, false)).
Lemma half_holds : holds (toD (/ 2)) (/ 2).
Proof.
  assert (E : binary64 (/ 2) = / 2). { change (/ 2) with (bpow radix2 (-1)). apply round_generic; [apply valid_rnd_N|]. apply generic_format_FLT_bpow; [reflexivity|lia]. }
  rewrite <- E at 2. apply to_holds. rewrite Rabs_pos_eq by lra. pose proof (pow_R1_Rle 2 1002 ltac:(lra)). lra.
Qed.
Lemma dopri45_size : table_size 1001 (tabR tab_dopri45).
Proof.
  assert (EN : entries_upto tab_dopri45 (qc 1000 1)) by apply order_tables. unfold entries_upto in EN. rewrite Forall_forall in EN. assert (Q : q2r (qc 1000 1) = 1000) by (unfold q2r; cbn; unfold Q2R; cbn; lra).
  assert (P : forall e, In e (co_a tab_dopri45 ++ co_b tab_dopri45 ++ co_c tab_dopri45) -> Rabs (binary64 (q2r e)) <= 1001).
  { intros e He. pose proof (q2r_abs _ _ (EN e He)) as Z. rewrite Q in Z. pose proof (err (q2r e)) as E. pose proof u_small as [U0 U1]. replace (binary64 (q2r e)) with ((binary64 (q2r e) - q2r e) + q2r e) by ring. eapply Rle_trans; [apply Rabs_triang|].
    assert (U * Rabs (q2r e) <= / 65536 * 1000) by (apply Rmult_le_compat; try lra; apply Rabs_pos). lra. }
  intros a Ha. unfold tabR in Ha. cbn [co_a co_b co_c] in Ha.
  destruct Ha as [H|[H|H]]; apply in_map_iff in H; destruct H as (e & <- & He); apply P; rewrite !in_app_iff; tauto.
Qed.
Example C89_adaptive_case : exists s', adaptive_runN (rhs_ofD (W:=unit) one_D) cfg45D (erk_set (N:=DNum) no_events dzero [Bone] (mkRk (N:=DNum) dzero [] None out_empty tt)) [toD (/ 2)] s' /\
  Forall2 holds [toD (/ 2)] [/ 2] /\ table_holds 1001 (e_co cfg45D) (tabF binary64 (tabR tab_dopri45)) /\ shortcut_ok (e_co cfg45D) 7 /\
  rhs_holds 1 (time_size 1001 (/ 2) 10) (state_size 7 1001 1 (/ 2) 10) 1 one_D one_R /\ state_size 7 1001 1 (/ 2) 10 <= 2 ^ 1000 /\ time_size 1001 (/ 2) 10 <= 2 ^ 1000.
Proof.
  destruct real_tables as [_ [_ [[H1 [H2 _]] _]]]. assert (B10 : 2 ^ 20 <= 2 ^ 1000) by (apply Rle_pow; [lra|lia]). replace (2 ^ 20) with 1048576 in B10 by (simpl; lra).
  destruct (C89_tables (tabR tab_dopri45) 7 1001 dopri45_size ltac:(lra) H2) as [TH SCD].
  destruct (compute_allN (N:=DNum) (tabD (tabR tab_dopri45)) 7 1 2 (rhs_ofD (W:=unit) one_D tt) [Bone] dzero (toD (/ 2)) (out_new (N:=DNum) 7 1 2) (wfD _ _ _ 7 2 TH (wf_tabF binary64 _ _ _ H1)) SCD
    (fun t x L => ex_intro _ [Bone] (conj eq_refl eq_refl)) eq_refl (RkFacts3.out_new_shaped 7 1 2))
    as [o' [evals [EC [[Sk [Sx [Sb [Uk Ux]]]] _]]]]. change (nT DNum) with double in *.
  assert (EA : exists s1 a, erk_attempt (N:=DNum) no_events (rhs_ofD (W:=unit) one_D) cfg45D (erk_set (N:=DNum) no_events dzero [Bone] (mkRk (N:=DNum) dzero [] None out_empty tt)) = (s1, AAccepted a) /\ pa_h a = toD (/ 2)).
  { unfold erk_attempt. cbn [erk_set erk_init rk_out out_is_empty out_empty o_k rk_h rk_x rk_t rk_w cfg45D e_hinit ev_start no_events fail].
    change (length (co_c (e_co cfg45D)) + 1)%nat with 7%nat. change (e_n cfg45D) with 1%nat. change (e_co cfg45D) with (tabD (tabR tab_dopri45)). change (ev_reset no_events tt) with tt.
    match goal with |- context [rk_compute ?o ?c ?g ?x ?t ?h] => change (rk_compute o c g x t h) with (rk_compute (N:=DNum) (out_new (N:=DNum) 7 1 2) (tabD (tabR tab_dopri45)) (rhs_ofD (W:=unit) one_D tt) [Bone] dzero (toD (/ 2))) end.
    change (nT DNum) with double in *. rewrite EC. cbn [fail fst snd e_mode]. unfold fail at 1. cbn [fst snd]. change (e_mode cfg45D) with 0%nat.
    rewrite (rd_ok (A:=list double) (o_x2 o') 0 []) by (exact (eq_ind_r (fun m => (0 < m)%nat) (Nat.lt_0_succ 1) Sx)). cbn [fail erk_error e_nocheck e_force negb orb ev_end no_events].
    rewrite (wr_ok (A:=list double) (o_x2 o') 0) by (exact (eq_ind_r (fun m => (0 < m)%nat) (Nat.lt_0_succ 1) Sx)). cbn [fail andb]. eexists _, _. split; [reflexivity|]. reflexivity. }
  destruct EA as [s1 [a [EA HA]]]. exists s1. split.
  - rewrite <- HA. apply (runN_step _ _ _ 1%nat s1 [a] a [] s1); [exact (erk_step_one _ _ _ _ _ _ EA)|constructor].
  - split; [constructor; [apply half_holds|constructor]|]. split; [exact TH|]. split; [exact SCD|]. split.
    + intros tD xD t x _ _ _ _. split; [split; [reflexivity|split; [reflexivity|]]|]; intros [|j] Hj; try lia; unfold cmpR, one_R; cbn [nth one_D]; [split; [reflexivity|apply Bone_correct]|rewrite Rabs_R1; lra].
    + pose proof u_small as [U0 U1]. unfold U in *. unfold state_size, term_size, time_size. rewrite Rabs_pos_eq by lra. simpl INR. split; lra.
Qed.
(** The sizes matter: Euler's method with h = 1 on x' = x, from the double 2^1023, leaves the range of doubles in one step; the state is infinite after that, although every number given was finite. *)
Definition euler_D : coeffs DNum := mkCo (N:=DNum) [] [Bone] [] (-1).
Definition big_D : double := binary_normalize 53 1024 double_prec double_range mode_NE 1 1023 false.
Theorem C89_overflow_refuted : is_finite big_D = true /\ ~ (forall count s' posts,
  rk_steps (N:=DNum) no_events (rhs_ofD (W:=unit) (linearD 1 one_matrixD)) euler_D 1 Bone count (rk_set (N:=DNum) no_events dzero [big_D] (mkRk (N:=DNum) dzero [] None out_empty tt)) = Ret (s', posts) ->
  forall v, In v (rk_x s') -> is_finite v = true).
Proof.
  split; [vm_compute; reflexivity|]. intros H.
  assert (E : match rk_steps (N:=DNum) no_events (rhs_ofD (W:=unit) (linearD 1 one_matrixD)) euler_D 1 Bone 1 (rk_set (N:=DNum) no_events dzero [big_D] (mkRk (N:=DNum) dzero [] None out_empty tt)) with
    Ret (s', _) => forallb is_finite (rk_x s') | _ => true end = false) by (vm_compute; reflexivity).
  specialize (H 1%nat). destruct (rk_steps (N:=DNum) no_events (rhs_ofD (W:=unit) (linearD 1 one_matrixD)) euler_D 1 Bone 1 (rk_set (N:=DNum) no_events dzero [big_D] (mkRk (N:=DNum) dzero [] None out_empty tt))) as [[s' posts]|e|e]; try discriminate E.
  specialize (H s' posts eq_refl). rewrite (proj2 (forallb_forall is_finite (rk_x s')) H) in E. discriminate E.
Qed.
Print Assumptions C89_overflow_refuted.
