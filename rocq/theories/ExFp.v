(** ExFp.v - the theorems of PropFp.v at work. *)
From Coq Require Import List Arith Lia ZArith QArith Qcanon Reals Lra.
From Flocq Require Import Core.
From Verif Require Import Base BaseFacts VecModel VOps NewtFacts RkModel RkSpec RkFacts RkFacts2 RkFacts3 RkFacts6 StepModel StepSpec ConvSpec ConvFacts ConvFacts2 ConvFacts3 ConvFacts4 ConvFacts5 HighSpec HighFacts5 HighFacts6 HighFacts7 ExConv ExHigh FpSpec FpFacts FpFacts2 FpFacts4 FpFacts5 FpFacts6 PropFp.
Import ListNotations.
Local Open Scope R_scope.

(** The right-hand side cos^2 x of C75_arctan, rounded once. *)
Definition cos2_F (t : R) (x : list R) : list R := map binary64 (cos2_rhs t x).
Lemma cos2_accurate : sized 1 cos2_F /\ accurate 1 (/ 2 ^ 53 + / 2 ^ 1075) cos2_rhs cos2_F.
Proof.
  split; [intros t x _; reflexivity|]. apply (rounded_accurate 1 cos2_rhs binary64); [|apply binary64_rounds|left; apply Rinv_0_lt_compat, pow_lt; lra|left; apply Rinv_0_lt_compat, pow_lt; lra|reflexivity].
  intros t x _ [|j] Hj; [|lia]. unfold cmpR, cos2_rhs. simpl nth. simpl. pose proof (COS_bound (2 * nth 0 x 0)). apply Rabs_le. unfold cmpR. lra.
Qed.
(** Four-stage Runge-Kutta in binary64 arithmetic computes arctan: the error is at most C (h^4 + 2 (count+1) 2^-53). *)
Example C83_arctan : exists C, 0 <= C /\ forall h count, 0 < h -> INR count * h <= 1 -> INR count * (/ 2 ^ 53 + / 2 ^ 1075) <= 1 ->
  exists s' posts, rk_steps (N:=FNum binary64) no_events (rhs_ofF (W:=unit) binary64 cos2_F) (tabF binary64 (tabR tab_rk4)) 1 h count
      (rk_set (N:=FNum binary64) no_events 0 [0] (mkRk (N:=FNum binary64) 0 [] None out_empty tt)) = Ret (s', posts) /\
    Rabs (cmpR (rk_x s') 0 - atan (INR count * h)) <= C * (h ^ 4 + (INR count + 1) * (/ 2 ^ 53 + / 2 ^ 1075)).
Proof.
  destruct C75_conditions as [H1 [H2 [H3 [H4 [H5 [H6 [H7 [_ H8]]]]]]]].
  destruct (C83_order cos2_rhs 1 1 (fun t => [atan t]) 0 1 4 tab_rk4 4 0%Qc ltac:(lia) H1 H2 (order_exact _ _ _ _ H3 H4) ltac:(discriminate) H5 ltac:(lra) H6 ltac:(lra) H7 H8) as [C [C0 HC]].
  exists C. split; [exact C0|]. intros h count Hh HC1 HC2. set (U := / 2 ^ 53) in *. set (E := / 2 ^ 1075) in *.
  assert (U0 : 0 <= U) by (left; apply Rinv_0_lt_compat, pow_lt; lra). assert (E0 : 0 <= E) by (left; apply Rinv_0_lt_compat, pow_lt; lra).
  assert (P1 : U + E <= 1). { assert (U <= / 2 ^ 1) by (apply Rinv_le_contravar; [lra|apply Rle_pow; [lra|lia]]). assert (E <= / 2 ^ 1) by (apply Rinv_le_contravar; [lra|apply Rle_pow; [lra|lia]]). lra. }
  assert (N0 : near 1 [0] [atan 0] 0). { intros [|j] Hj; [|lia]. unfold cmpR. simpl. rewrite atan_0, Rminus_eq_0, Rabs_R0. lra. }
  destruct (HC unit binary64 U E (U + E) cos2_F (mkRk (N:=FNum binary64) 0 [] None out_empty tt) h count [0] 0 binary64_rounds U0 E0 ltac:(lra) (proj1 cos2_accurate) (proj2 cos2_accurate) Hh HC1 HC2 eq_refl ltac:(lra) N0)
    as [s' [posts [EQ [_ N]]]].
  exists s', posts. split; [exact EQ|]. specialize (N 0%nat ltac:(lia)). rewrite Rplus_0_l in N. rewrite q2r_0 in N. eapply Rle_trans; [exact N|]. right. ring.
Qed.
(** The number of steps matters: with x' = 1, x(0) = 1 and steps below 2^-60 the state never changes in binary64 - no bound C h holds for Euler's method. *)
Definition one_rhs (t : R) (x : list R) : list R := [1].
Lemma stuck h w : 0 < h <= / 2 ^ 60 -> forall count t s', pathN (N:=FNum binary64) (tabF binary64 (tabR tab_euler)) 1 1 0 (fun t x => rhs_ofF (W:=unit) binary64 one_rhs w t x) (t, [1]) (repeat h count) s' -> snd s' = [1].
Proof.
  intros Hh. induction count as [|c I]; intros t s' P; simpl repeat in P; apply pathN_inv in P; [subst s'; reflexivity|].
  destruct P as [[t1 x1] [T1 P]]. assert (X1 : x1 = [1]); [|subst x1; exact (I t1 s' P)].
  destruct T1 as [_ [ev [k [[_ [_ S1]] [L1 R1]]]]]. destruct (S1 0%nat) as [tt0 [arg [_ [E _]]]]; [lia|]. cbn [snd] in *.
  assert (K0 : nth 0 k [] = [1]) by (injection E as E; symmetry; exact E).
  specialize (R1 0%nat ltac:(lia)). cbn [acc_of] in R1. change (0 * 1 + 0)%nat with 0%nat in R1.
  assert (B : nth 0 (co_b (tabF binary64 (tabR tab_euler))) (n0 (FNum binary64)) = 1).
  { change (binary64 (q2r 1) = 1). unfold q2r. simpl. rewrite RMicromega.Q2R_1. apply b64_1. }
  rewrite B in R1. change (neqb (FNum binary64) 1 (n0 (FNum binary64))) with (Reqb 1 0) in R1.
  assert (E10 : Reqb 1 0 = false) by (unfold Reqb; destruct (Req_EM_T 1 0); [lra|reflexivity]). rewrite E10, K0 in R1.
  change (@nth R 0 x1 0 = binary64 (1 + binary64 (1 * binary64 (h * 1)))) in R1.
  assert (Q1 : 0 <= binary64 (h * 1) <= / 2 ^ 60) by (apply b64_small; rewrite Rmult_1_r; lra).
  assert (Q2 : 0 <= binary64 (1 * binary64 (h * 1)) <= / 2 ^ 60) by (apply b64_small; rewrite Rmult_1_l; exact Q1).
  rewrite (b64_absorb _ Q2) in R1. destruct x1 as [|a [|b x1]]; [discriminate L1| |discriminate L1]. simpl in R1. subst a. reflexivity.
Qed.
Theorem C83_rounding_term_refuted : ~ (exists C, 0 <= C /\ forall h count, 0 < h -> INR count * h <= 1 ->
  exists s' posts, rk_steps (N:=FNum binary64) no_events (rhs_ofF (W:=unit) binary64 one_rhs) (tabF binary64 (tabR tab_euler)) 1 h count
      (rk_set (N:=FNum binary64) no_events 0 [1] (mkRk (N:=FNum binary64) 0 [] None out_empty tt)) = Ret (s', posts) /\
    Rabs (cmpR (rk_x s') 0 - (1 + INR count * h)) <= C * h).
Proof.
  intros [C [C0 HC]]. assert (UB : exists m, 2 ^ 60 + 2 * C < INR m) by (exists (Z.to_nat (up (2 ^ 60 + 2 * C))); destruct (archimed (2 ^ 60 + 2 * C)) as [UA _]; rewrite INR_IZR_INZ, Z2Nat.id; [exact UA|]; apply le_IZR; left; assert (0 < 2 ^ 60) by (apply pow_lt; lra); lra). destruct UB as [m Hm].
  assert (P60 : 0 < 2 ^ 60) by (apply pow_lt; lra). assert (M0 : 0 < INR m) by lra.
  assert (H60 : / INR m <= / 2 ^ 60) by (apply Rinv_le_contravar; lra).
  destruct (HC (/ INR m) m) as [s' [posts [E N]]]; [apply Rinv_0_lt_compat; assumption|right; apply Rinv_r; lra|].
  pose proof (fixed_pathN (N:=FNum binary64) (rhs_ofF (W:=unit) binary64 one_rhs) (tabF binary64 (tabR tab_euler)) 1 1 (/ INR m) (wf_tabF binary64 _ 1 1 (wf_tab tab_euler 1 1 wf_euler))
    (sc_tabF binary64 _ 1 (proj1 binary64_rounds) (sc_tab tab_euler 1 (sc_neg tab_euler 1 eq_refl))) tt 0 [1] (mkRk (N:=FNum binary64) 0 [] None out_empty tt) m
    (good_ofF binary64 1 one_rhs tt (fun t x _ => eq_refl)) eq_refl eq_refl) as [s2 [posts2 [E2 [_ P]]]].
  change (nT (FNum binary64)) with R in *. rewrite E in E2. injection E2 as <- <-.
  apply (stuck (/ INR m) tt) in P; [|split; [apply Rinv_0_lt_compat; assumption|assumption]]. cbn [snd] in P. rewrite P in N.
  rewrite Rinv_r in N by lra. unfold cmpR in N. simpl in N. replace (1 - (1 + 1)) with (- (1)) in N by ring. rewrite Rabs_Ropp, Rabs_R1 in N.
  assert (C * / INR m < 1); [|lra]. apply Rmult_lt_reg_r with (INR m); [assumption|]. rewrite Rmult_assoc, Rinv_l by lra. lra.
Qed.
Print Assumptions C83_rounding_term_refuted.
(** C83_adaptive: a run of the adaptive DOPRI 5(4) solver in binary64 with the accuracy check switched off, on x' = x: one accepted step of size 1/2. *)
Definition cfg45F : erkcfg (FNum binary64) := mkErk (N:=FNum binary64) (tabF binary64 (tabR tab_dopri45)) 1 (/ 2) (/ 1000) 0 true false 0 (fun _ => Ret 0) (fun h _ => (h, true, false)).
Example C83_adaptive_case : exists s', adaptive_runN (rhs_ofF (W:=unit) binary64 idf) cfg45F (erk_set (N:=FNum binary64) no_events 0 [1] (mkRk (N:=FNum binary64) 0 [] None out_empty tt)) [/ 2] s' /\
  Forall (fun h => 0 < h <= / 2) [/ 2] /\ total [/ 2] <= 1 /\ accurate 1 0 idf idf.
Proof.
  destruct real_tables as [_ [_ [[H1 [H2 _]] _]]].
  destruct (compute_allN (N:=FNum binary64) (tabF binary64 (tabR tab_dopri45)) 7 1 2 (rhs_ofF (W:=unit) binary64 idf tt) [1] 0 (/ 2) (out_new (N:=FNum binary64) 7 1 2) (wf_tabF _ _ _ _ H1) (sc_tabF _ _ _ (proj1 binary64_rounds) H2)
    (good_ofF binary64 1 idf tt (fun t x L => L)) eq_refl (RkFacts3.out_new_shaped 7 1 2))
    as [o' [evals [EC [[Sk [Sx [Sb [Uk Ux]]]] _]]]]. change (nT (FNum binary64)) with R in *.
  assert (EA : exists s1 a, erk_attempt (N:=FNum binary64) no_events (rhs_ofF (W:=unit) binary64 idf) cfg45F (erk_set (N:=FNum binary64) no_events 0 [1] (mkRk (N:=FNum binary64) 0 [] None out_empty tt)) = (s1, AAccepted a) /\ pa_h a = / 2).
  { unfold erk_attempt. cbn [erk_set erk_init rk_out out_is_empty out_empty o_k rk_h rk_x rk_t rk_w cfg45F e_hinit ev_start no_events fail].
    change (length (co_c (e_co cfg45F)) + 1)%nat with 7%nat. change (e_n cfg45F) with 1%nat. change (e_co cfg45F) with (tabF binary64 (tabR tab_dopri45)). change (ev_reset no_events tt) with tt.
    match goal with |- context [rk_compute ?o ?c ?g ?x ?t ?h] => change (rk_compute o c g x t h) with (rk_compute (N:=FNum binary64) (out_new (N:=FNum binary64) 7 1 2) (tabF binary64 (tabR tab_dopri45)) (rhs_ofF (W:=unit) binary64 idf tt) [1] 0 (/ 2)) end.
    change (nT (FNum binary64)) with R in *. rewrite EC. cbn [fail fst snd e_mode]. unfold fail at 1. cbn [fst snd]. change (e_mode cfg45F) with 0%nat.
    rewrite (rd_ok (A:=list R) (o_x2 o') 0 []) by (exact (eq_ind_r (fun m => (0 < m)%nat) (Nat.lt_0_succ 1) Sx)). cbn [fail erk_error e_nocheck e_force negb orb ev_end no_events].
    rewrite (wr_ok (A:=list R) (o_x2 o') 0) by (exact (eq_ind_r (fun m => (0 < m)%nat) (Nat.lt_0_succ 1) Sx)). cbn [fail andb]. eexists _, _. split; [reflexivity|]. reflexivity. }
  destruct EA as [s1 [a [EA HA]]]. exists s1. split.
  - rewrite <- HA. apply (runN_step _ _ _ 1%nat s1 [a] a [] s1); [exact (erk_step_one _ _ _ _ _ _ EA)|constructor].
  - split; [constructor; [lra|constructor]|]. split; [simpl; lra|]. intros t x b Lx BX j Hj. rewrite Rminus_eq_0, Rabs_R0. lra.
Qed.
(** C83_linear_rhs in binary64: u + eta is at most 1. *)
Example C83_linear_case : exists K, 0 <= K /\ accurate 2 (K * (/ 2 ^ 53 + / 2 ^ 1075)) (linearR 2 (fun i j => INR i - INR j)) (linearF binary64 2 (fun i j => INR i - INR j)).
Proof.
  destruct (C83_linear_rhs 2 (fun i j => INR i - INR j)) as [K [K0 H]]. exists K. split; [exact K0|]. apply H; [apply C83_binary64|left; apply Rinv_0_lt_compat, pow_lt; lra|left; apply Rinv_0_lt_compat, pow_lt; lra|].
  assert (/ 2 ^ 53 <= / 2 ^ 1) by (apply Rinv_le_contravar; [lra|apply Rle_pow; [lra|lia]]). assert (/ 2 ^ 1075 <= / 2 ^ 1) by (apply Rinv_le_contravar; [lra|apply Rle_pow; [lra|lia]]). lra.
Qed.
