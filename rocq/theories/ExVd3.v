(** ExVd3.v - the theorems of PropVd3.v at work. *)
From Coq Require Import List Arith Lia ZArith Reals Lra.
From Flocq Require Import Core IEEE754.BinarySingleNaN.
From Verif Require Import Base SMap SpModel SpSpec VecModel ConvSpec LufSpec IeeeSpec VdSpec ExVd ExVd2 PropVd3.
Import ListNotations.
Local Open Scope R_scope.

(** (2, -1/4) times [[3/2, 2], [0, 1]]: the second column. *)
Example C91_vector_times_matrix_case : exists w : list double, svmul exM exv (SW 0) = Ret w /\ length w = 2%nat /\ is_finite (nth 1 w dzero) = true /\
  Rabs (val w 1 - 15 / 4) <= gam 3 (/ 2 ^ 53) * (17 / 4) + 2 * / 2 ^ 1073.
Proof.
  assert (V0 : B2R (dbl 2 0) = 2) by (vm_compute; lra). assert (V1 : B2R (dbl 1 0) = 1) by (vm_compute; lra).
  assert (W0 : val exv 0 = 2) by (unfold val; vm_compute; lra). assert (W1 : val exv 1 = - / 4) by (unfold val; vm_compute; lra).
  assert (G0 : (sget exM (SW 0) (0, 1)%nat : double) = dbl 2 0) by reflexivity. assert (G1 : (sget exM (SW 0) (1, 1)%nat : double) = dbl 1 0) by reflexivity.
  assert (S1 : rsum 2 (fun r => B2R (sget exM (SW 0) (r, 1%nat) : double) * val exv r) = 15 / 4) by (cbn [rsum]; rewrite G0, G1, V0, V1, W0, W1; lra).
  assert (S2 : rsum 2 (fun r => Rabs (B2R (sget exM (SW 0) (r, 1%nat) : double) * val exv r)) = 17 / 4).
  { cbn [rsum]. rewrite G0, G1, V0, V1, W0, W1. rewrite (Rabs_pos_eq (2 * 2)), (Rabs_left (1 * - / 4)) by lra. lra. }
  assert (FV : all_finite exv) by (intros x [<-|[<-|[]]]; vm_compute; reflexivity).
  destruct (C91_vector_times_matrix exM (SW 0) exv (exM_ok _ _ _) (exM_range _ _ _) eq_refl eq_refl FV) as (w & E & L & H).
  - change (INR 3 * / 2 ^ 53 <= / 4). replace (/ 2 ^ 53) with (/ 16 * / 2 ^ 49) by (change 53%nat with (4 + 49)%nat; rewrite pow_add; field; apply pow_nonzero; lra).
    assert (0 < / 2 ^ 49 <= 1). { split; [apply Rinv_0_lt_compat, pow_lt; lra|]. rewrite <- Rinv_1. apply Rinv_le_contravar; [lra|apply pow_R1_Rle; lra]. } simpl INR. lra.
  - exists w. split; [exact E|]. split; [exact L|]. destruct (H 1%nat ltac:(simpl; lia)) as [F B].
    + intros [|[|r]] Hr; [rewrite G0|rewrite G1|simpl in Hr; lia]; vm_compute; reflexivity.
    + change (length exv) with 2%nat. rewrite S2. change 1000%nat with (3 + 997)%nat. rewrite pow_add. pose proof (pow_R1_Rle 2 997 ltac:(lra)). lra.
    + split; [exact F|]. change (length exv) with 2%nat in B. rewrite S1, S2 in B. exact B.
Qed.
Print Assumptions C91_vector_times_matrix_case.
(** NaN in the first row, second column: the second element of the result is NaN, the first one is not. *)
Example C91_vector_times_matrix_nan_case : exists w : list double, svmul [mkS (N:=DNum) false (2,2)%nat [((0,0)%nat, dbl 3 (-1)); ((0,1)%nat, (B754_nan : double)); ((1,1)%nat, dbl 1 0)]] exv (SW 0) = Ret w /\
  nth 1 w dzero = B754_nan /\ is_finite (nth 0 w dzero) = true.
Proof.
  set (m := [mkS (N:=DNum) false (2,2)%nat [((0,0)%nat, dbl 3 (-1)); ((0,1)%nat, (B754_nan : double)); ((1,1)%nat, dbl 1 0)]]).
  destruct (C91_vector_times_matrix_nan m (SW 0) exv (exM_ok _ _ _) (exM_range _ _ _) eq_refl eq_refl) as (w & E & H).
  exists w. split; [exact E|]. split; [apply (H 1%nat 0%nat (B754_nan : double)); [right; left; reflexivity|left; reflexivity]|].
  assert (Q : match svmul m exv (SW 0) with Ret (x :: _) => is_finite (x : double) | _ => false end = true) by (vm_compute; reflexivity).
  rewrite E in Q. destruct w as [|x w]; [discriminate Q|exact Q].
Qed.
