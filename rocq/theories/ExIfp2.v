(** ExIfp2.v - examples for the theorems of PropIfp2.v. *)
From Coq Require Import List Arith Bool ZArith Lia Lra Permutation Reals.
From Verif Require Import Base BaseFacts VecModel VOps MapModel NewtModel NewtSpec RkModel RkSpec StepSpec ExtModel ImpModel ImpSpec ConvSpec FpSpec ImcSpec IfpSpec FpFacts4 PropIfp2 ExIfp.
Import ListNotations.
Local Open Scope R_scope.

(** The run of ExIfp.v over a time of 2 in binary64: the states are not looked at, the theorems bound the error with B = 3. *)
Example C87_follows_case : forall count : nat, (count <= 4)%nat ->
  let w := / 2 ^ 53 + / 2 ^ 1075 in let eps := 1 / 1000 + step_noise 3 (7 * (1 + 3)) 1 (1 + 0 + 2) 2 (1 / 2) w (0 * (1 + 3)) in
  exists s', i_steps no_events (plain_newton (nwd binary64) (litF binary64) 3 5) (cF binary64) count (i_set (N:=FNum binary64) 0 [0] false (sF binary64)) = Some s' /\
    near 1 (em_x (i_map s')) (lineX (0 + INR count * (1 / 2))) (exp (2 * 1 * 2) * (0 + 2 * 2 * (0 * (1 / 2) + eps / (1 / 2)))) /\
    dist2 1 (em_x (i_map s')) (lineX (0 + INR count * (1 / 2))) <= dist2 1 [0] (lineX 0) + 2 * (sqrt (INR 1) * (0 * (1 / 2) + eps / (1 / 2))).
Proof.
  intros count HC w eps. destruct C87_hypotheses as (RD & ID & U0 & E0 & W & _).
  assert (W1 : / 2 ^ 52 = / 4503599627370496) by (f_equal; lra). assert (WS : 0 <= w <= / 4503599627370496) by (unfold w; lra).
  assert (IC : 0 <= INR count <= 4). { split; [apply pos_INR|]. replace 4 with (INR 4) by (cbn; lra). apply le_INR. exact HC. }
  destruct (many binary64 (2 ^ 50) (/ 2 ^ 53) (/ 2 ^ 1075) ltac:(lia) b64_16 RD U0 ltac:(lra) (i_set (N:=FNum binary64) 0 [0] false (sF binary64)) 4 count 0%Z) as [s' [E _]];
    [lia | change (2 ^ 50)%Z with 1125899906842624%Z; lia | cbn -[IZR]; field | cbn -[IZR]; f_equal; field | reflexivity | reflexivity | reflexivity|].
  exists s'. split; [exact E|].
  assert (C2 : 3 * INR count * w <= 1). { apply Rle_trans with (3 * 4 * / 4503599627370496); [|lra]. apply Rmult_le_compat; lra. }
  assert (CN : forall w0 b, 0 <= b -> computes_near (n_vars (cF binary64)) 6 b (0 * (1 + b)) (ic_rhs (cF binary64) w0) draw).
  { intros w0 b _ t x L. exists (draw t x). split; [reflexivity|]. destruct x as [|a [|? x]]; try discriminate L. split; [reflexivity|]. intros _ _ j Hj. rewrite Rminus_diag_eq, Rabs_R0 by reflexivity. lra. }
  assert (SW : forall b, 0 <= b -> slopes_within (n_vars (cF binary64)) 6 b (7 * (1 + b)) 1 draw).
  { intros b Hb t s x H1 H2 H3 H4. destruct (draw_slopes 6 b ltac:(lra) Hb t s x H1 H2 H3 H4) as [Q1 Q2]. split; [|exact Q2]. intros j Hj. specialize (Q1 j Hj). lra. }
  assert (PF : positions_first (ic_nd (cF binary64)) (ic_nf (cF binary64)) draw) by (intros t x j _ Hj; exfalso; exact (Nat.nlt_0_r _ Hj)).
  assert (MX : machine binary64 [0]) by (intros v [<-|[]]; exact (proj1 RD)).
  assert (W2 : / 2 ^ 53 + / 2 ^ 1075 <= 1) by lra. assert (LE : (l_eta (litF binary64) : R) <= 1) by (cbn -[IZR]; lra).
  assert (CH : INR count * (ic_h (cF binary64) : R) <= 2) by (cbn -[IZR INR]; lra).
  assert (TS : 2 * (1 + Rabs 0 + 2) <= 6) by (rewrite Rabs_R0; lra).
  assert (TF : 0 <= toleranceF (sF binary64)) by (unfold toleranceF; cbn -[IZR]; lra).
  assert (H1 : 0 < (ic_h (cF binary64) : R)) by (cbn -[IZR]; lra).
  assert (A1 : forall o, ic_ord (cF binary64) = Some o -> Permutation (fst o) (seq 0 (ic_nd (cF binary64) + ic_nf (cF binary64))) /\ Permutation (snd o) (seq 0 (ic_nd (cF binary64) + ic_nf (cF binary64)))) by (intros o Ho; discriminate Ho).
  assert (A2 : forall pr, ic_pred (cF binary64) = Some pr -> forall h t x k q y q', pr h t x k q = Ret (y, q') -> machine binary64 y) by (intros pr Hp; discriminate Hp).
  assert (NX : near 1 [0] (lineX 0) 0) by (intros [|j] Hj; [|lia]; unfold cmpR, lineX; cbn [nth]; rewrite Rminus_diag_eq, Rabs_R0 by reflexivity; lra).
  assert (EPS : 0 <= eps <= 1 / 1000 + / 1000000) by (unfold eps, step_noise; lra).
  assert (XB : forall e t, e <= 1 -> 0 <= t <= 0 + 2 -> bound 1 (lineX t) (3 - e)).
  { intros e t He Ht [|j] Hj; [|lia]. unfold cmpR, lineX. cbn [nth]. rewrite Rabs_pos_eq; lra. }
  assert (EX : exp (2 * 1 * 2) <= 81).
  { replace (2 * 1 * 2) with (1 + 1 + (1 + 1)) by ring. rewrite !exp_plus. pose proof exp_le_3 as Q. pose proof (exp_pos 1) as Q0. assert (exp 1 * exp 1 <= 9) by nra. assert (0 < exp 1 * exp 1) by nra. nra. }
  assert (D0 : dist2 1 [0] (lineX 0) = 0). { unfold dist2. cbn [rsum]. unfold cmpR, lineX. cbn [nth]. replace (0 + (0 - 0) * (0 - 0)) with 0 by ring. apply sqrt_0. }
  split.
  - pose proof (C87_follows binary64 (/ 2 ^ 53) (/ 2 ^ 1075) unit unit unit (nwd binary64) (litF binary64) 3 5 (cF binary64) draw 6 7 1 0 RD ID U0 E0 W2 LE CN SW PF A1 A2 ltac:(lra) ltac:(lra) ltac:(lra)
      lineX 0 2 0 3 count [0] false (sF binary64) s' TS ltac:(lra) H1 CH C2 TF eq_refl MX (lineX_solves _ _) ltac:(lra) E 1 0 ltac:(lra) draw_lip (lineX_slope _ _)) as TH.
    cbv zeta in TH. rewrite Rabs_R0 in TH. apply TH; [cbn -[IZR]; lra|cbn -[IZR]; lra|lra|exact NX| |].
    + change (2 * (60 * (1 + 7 + 0) * (1 + 1 / 2) * w + 1 / 2 * 0) < 1). lra.
    + intros t Ht. apply XB; [|exact Ht]. change (exp (2 * 1 * 2) * (0 + 2 * 2 * (0 * (1 / 2) + eps / (1 / 2))) <= 1).
      apply Rle_trans with (81 * (0 + 2 * 2 * (0 * (1 / 2) + eps / (1 / 2)))); [apply Rmult_le_compat_r; lra|lra].
  - pose proof (C87_follows_stiff binary64 (/ 2 ^ 53) (/ 2 ^ 1075) unit unit unit (nwd binary64) (litF binary64) 3 5 (cF binary64) draw 6 7 1 0 RD ID U0 E0 W2 LE CN SW PF A1 A2 ltac:(lra) ltac:(lra) ltac:(lra)
      lineX 0 2 0 3 count [0] false (sF binary64) s' TS ltac:(lra) H1 CH C2 TF eq_refl MX (lineX_solves _ _) ltac:(lra) E draw_one_sided (lineX_slope _ _) eq_refl) as TH.
    cbv zeta in TH. rewrite Rabs_R0 in TH. apply TH.
    + change (sqrt (INR 1) * (60 * (1 + 7 + 0) * (1 + 1 / 2) * w + 1 / 2 * 0) < 1). change (INR 1) with 1. rewrite sqrt_1. lra.
    + intros t Ht. apply XB; [|exact Ht]. change (dist2 1 [0] (lineX 0) + 2 * (sqrt (INR 1) * (0 * (1 / 2) + eps / (1 / 2))) <= 1). rewrite D0. change (INR 1) with 1. rewrite sqrt_1. lra.
Qed.
