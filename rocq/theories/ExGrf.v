(** ExGrf.v - examples for C88. *)
From Coq Require Import List Arith Bool ZArith Lia Lra Permutation Reals.
From Verif Require Import Base BaseFacts VecModel VOps MapModel NewtModel NewtSpec RkModel RkSpec StepSpec ExtModel ImpModel ImpSpec ConvSpec FpSpec ImcSpec IfpSpec FpFacts4 GrfSpec PropGrf ExIfp.
Import ListNotations.
Local Open Scope R_scope.

(** x' = (t - x) + 1 from x = 0 at t = 0 in binary64, steps of 1/2 over a time of 2: both states are within 1/10^9 of the line x = t. *)
Definition rhsF (_ : unit) (t : R) (x : list R) : Outcome (list R) := Ret (draw t x).
Definition gF : gst (FNum binary64) unit := mkG (N:=FNum binary64) 0 [0] [] [] false 1 tt.
Example C88_case : forall count : nat, (count <= 4)%nat ->
  exists s', g_steps (N:=FNum binary64) no_events rhsF 2 count (g_size (N:=FNum binary64) (1 / 2) gF) = Some s' /\
    (exists z : list R, g_state (N:=FNum binary64) false (/ 2) s' = Ret z /\ near 1 z (lineX (0 + INR count * (1 / 2))) (/ 1000000000)) /\
    exists z : list R, g_state (N:=FNum binary64) true (/ 2) s' = Ret z /\ near 1 z (lineX (0 + INR count * (1 / 2))) (/ 100000000).
Proof.
  intros count HC. destruct C87_hypotheses as (RD & _ & U0 & E0 & W & _). set (w := / 2 ^ 53 + / 2 ^ 1075) in *.
  assert (W1 : / 2 ^ 52 = / 4503599627370496) by (f_equal; lra). assert (WS : 0 <= w <= / 4503599627370496) by (unfold w in *; lra).
  assert (IC : 0 <= INR count <= 4). { split; [apply pos_INR|]. replace 4 with (INR 4) by (cbn; lra). apply le_INR. exact HC. }
  assert (C2 : 3 * INR count * w <= 1). { apply Rle_trans with (3 * 4 * / 4503599627370496); [|lra]. apply Rmult_le_compat; lra. }
  assert (CN : computes_near 1 6 3 0 (rhsF (g_w gF)) draw).
  { intros t x L. exists (draw t x). split; [reflexivity|]. destruct x as [|a [|? x]]; try discriminate L. split; [reflexivity|]. intros _ _ j Hj. rewrite Rminus_diag_eq, Rabs_R0 by reflexivity. lra. }
  pose proof (draw_slopes 6 3 ltac:(lra) ltac:(lra)) as SW.
  assert (TS : 2 * (1 + Rabs 0 + 2) <= 6) by (rewrite Rabs_R0; lra).
  assert (NX : near 1 [0] (lineX 0) 0) by (intros [|j] Hj; [|lia]; unfold cmpR, lineX; cbn [nth]; rewrite Rminus_diag_eq, Rabs_R0 by reflexivity; lra).
  assert (EX : exp (2 * 1 * 2) <= 81).
  { replace (2 * 1 * 2) with (1 + 1 + (1 + 1)) by ring. rewrite !exp_plus. pose proof exp_le_3 as Q. pose proof (exp_pos 1) as Q0. assert (exp 1 * exp 1 <= 9) by nra. assert (0 < exp 1 * exp 1) by nra. nra. }
  assert (CC : curvature_changes 1 draw lineX (fun _ _ => 0) 0 (0 + 2) 0).
  { split.
    - intros t [|j] _ Hj; [|lia]. unfold cmpR, lineX, draw. cbn [nth]. intros e He. exists (mkposreal 1 Rlt_0_1). intros k Hk _. replace (_ / k - 0) with 0 by (field; exact Hk). rewrite Rabs_R0. exact He.
    - intros a b j _ _ _. rewrite Rminus_diag_eq, Rabs_R0 by reflexivity. lra. }
  pose proof (C88_error binary64 (/ 2 ^ 53) (/ 2 ^ 1075) unit rhsF 1 draw 6 3 (1 + 6 + 3) 1 0 RD U0 E0 ltac:(unfold w in *; lra) gF CN SW ltac:(lra) ltac:(lra) ltac:(lra) ltac:(lra)
    lineX (fun _ _ => 0) 1 0 0 2 0 (1 / 2) count ltac:(lra) draw_lip ltac:(lra) ltac:(lra)) as TH.
  cbv zeta in TH. change (g_t gF) with 0 in TH. fold w in TH. rewrite Rabs_R0 in TH.
  set (eps := gragg_noise 3 (1 + 6 + 3) 1 (1 + 0 + 2) 2 (1 / 2) w 0) in *.
  set (E := exp (2 * 1 * 2) * _) in TH.
  assert (EPS : 0 <= eps <= 900 * / 4503599627370496) by (unfold eps, gragg_noise; lra).
  assert (EE : 0 <= E <= 81 * (9 * (900 * / 4503599627370496))).
  { unfold E. pose proof (exp_pos (2 * 1 * 2)). split; [apply Rmult_le_pos; lra|]. apply Rmult_le_compat; lra. }
  destruct TH as (s' & ES & _ & P1 & z2 & EZ2 & P2);
    [exact (lineX_solves _ _)|exact (lineX_slope _ _)|exact CC|lra|lra|lra|exact C2|reflexivity|lra|exact NX| |].
  { intros t Ht [|j] Hj; [|lia]. unfold cmpR, lineX. cbn [nth]. rewrite Rabs_pos_eq; lra. }
  exists s'. split; [exact ES|]. split.
  - destruct (P1 (/ 2)) as (z & EZ & NZ). exists z. split; [exact EZ|]. intros j Hj. eapply Rle_trans; [apply NZ; exact Hj|]. lra.
  - exists z2. split; [exact EZ2|]. intros j Hj. eapply Rle_trans; [apply P2; exact Hj|]. lra.
Qed.
