(** ExVd4.v - the theorems of PropVd4.v at work, and NaN in the maximum norm. *)
From Coq Require Import List Arith Lia ZArith Reals Lra.
From Flocq Require Import Core IEEE754.BinarySingleNaN.
From Verif Require Import Base SMap SpModel SpSpec VecModel ConvSpec LufSpec IeeeSpec VdSpec ExVd ExVd2 PropVd4.
Import ListNotations.
Local Open Scope R_scope.

(** [[3/2, 2], [0, 1]]: norms 2, 9/2 and 29/4. *)
Example C91_matrix_norms_case : all_finite (map snd (siter exM (SW 0))) /\ B2R (sinfnorm exM (SW 0) : double) = 2 /\
  Rabs (B2R (sonenorm exM (SW 0) : double) - 9 / 2) <= gam 4 (/ 2 ^ 53) * (9 / 2) + 3 * / 2 ^ 1073 /\ Beqb (sonenorm exM (SW 0) : double) (dbl 9 (-1)) = true /\ Beqb (seuclsq exM (SW 0) : double) (dbl 29 (-2)) = true.
Proof.
  assert (F : all_finite (map snd (siter exM (SW 0)))) by (intros x [<-|[<-|[<-|[]]]]; vm_compute; reflexivity).
  assert (V0 : val (map snd (siter exM (SW 0))) 0 = 3 / 2) by (unfold val; vm_compute; lra). assert (V1 : val (map snd (siter exM (SW 0))) 1 = 2) by (unfold val; vm_compute; lra). assert (V2 : val (map snd (siter exM (SW 0))) 2 = 1) by (unfold val; vm_compute; lra).
  assert (S1 : rsum 3 (fun i => Rabs (val (map snd (siter exM (SW 0))) i)) = 9 / 2) by (cbn [rsum]; rewrite V0, V1, V2, !Rabs_pos_eq by lra; lra).
  split; [exact F|]. split; [vm_compute; lra|]. split; [|vm_compute; split; reflexivity].
  destruct (C91_matrix_norms exM (SW 0) F) as (_ & B & _). change (length (map snd (siter exM (SW 0)))) with 3%nat in B. rewrite S1 in B. replace (INR 3) with 3 in B by (simpl; lra). apply B.
  - change (INR 4 * / 2 ^ 53 <= / 4). replace (/ 2 ^ 53) with (/ 16 * / 2 ^ 49) by (change 53%nat with (4 + 49)%nat; rewrite pow_add; field; apply pow_nonzero; lra).
    assert (0 < / 2 ^ 49 <= 1). { split; [apply Rinv_0_lt_compat, pow_lt; lra|]. rewrite <- Rinv_1. apply Rinv_le_contravar; [lra|apply pow_R1_Rle; lra]. } simpl INR. lra.
  - change 1000%nat with (3 + 997)%nat. rewrite pow_add. pose proof (pow_R1_Rle 2 997 ltac:(lra)). lra.
Qed.
Print Assumptions C91_matrix_norms_case.
Definition exN : mems DNum := [mkS (N:=DNum) false (2,2)%nat [((0,0)%nat, dbl 3 (-1)); ((0,1)%nat, (B754_nan : double)); ((1,1)%nat, dbl 1 0)]].
Example C91_matrix_norms_nan_case : (sonenorm exN (SW 0) : double) = B754_nan /\ (seuclsq exN (SW 0) : double) = B754_nan.
Proof. apply (C91_matrix_norms_nan exN (SW 0) (0,1)%nat). right. left. reflexivity. Qed.
(** The maximum norm does not see NaN. *)
Theorem C91_matrix_infnorm_nan_refuted : ~ (forall (m : mems DNum) (e : sexpr DNum) p, In (p, (B754_nan : double)) (siter m e) -> (sinfnorm m e : double) = B754_nan).
Proof. intros H. pose proof (H exN (SW 0) (0,1)%nat ltac:(right; left; reflexivity)) as E. apply (f_equal is_nan) in E. vm_compute in E. discriminate E. Qed.
Print Assumptions C91_matrix_infnorm_nan_refuted.
(** The square of [[3/2, 2], [0, 1]]: the element in the first row and second column. *)
Example C91_product_case : exists res, sprod exM (SW 0) (SW 0) = Ret res /\ ssz res = (2, 2)%nat /\ is_finite (get res (0, 1)%nat : double) = true /\
  Rabs (B2R (get res (0, 1)%nat : double) - 5) <= gam 3 (/ 2 ^ 53) * 5 + 2 * / 2 ^ 1073.
Proof.
  assert (V0 : B2R (dbl 3 (-1)) = 3 / 2) by (vm_compute; lra). assert (V1 : B2R (dbl 2 0) = 2) by (vm_compute; lra). assert (V2 : B2R (dbl 1 0) = 1) by (vm_compute; lra).
  assert (G0 : (sget exM (SW 0) (0, 0)%nat : double) = dbl 3 (-1)) by reflexivity. assert (G1 : (sget exM (SW 0) (0, 1)%nat : double) = dbl 2 0) by reflexivity. assert (G2 : (sget exM (SW 0) (1, 1)%nat : double) = dbl 1 0) by reflexivity.
  assert (S1 : rsum 2 (fun k => B2R (sget exM (SW 0) (0%nat, k) : double) * B2R (sget exM (SW 0) (k, 1%nat) : double)) = 5) by (cbn [rsum]; rewrite G0, G1, G2, V0, V1, V2; lra).
  assert (S2 : rsum 2 (fun k => Rabs (B2R (sget exM (SW 0) (0%nat, k) : double) * B2R (sget exM (SW 0) (k, 1%nat) : double))) = 5) by (cbn [rsum]; rewrite G0, G1, G2, V0, V1, V2; rewrite !Rabs_pos_eq by lra; lra).
  destruct (C91_product exM (SW 0) (SW 0) (exM_ok _ _ _) eq_refl (exM_range _ _ _)) as (res & E & _ & Z & _ & H & _).
  - change (INR 3 * / 2 ^ 53 <= / 4). replace (/ 2 ^ 53) with (/ 16 * / 2 ^ 49) by (change 53%nat with (4 + 49)%nat; rewrite pow_add; field; apply pow_nonzero; lra).
    assert (0 < / 2 ^ 49 <= 1). { split; [apply Rinv_0_lt_compat, pow_lt; lra|]. rewrite <- Rinv_1. apply Rinv_le_contravar; [lra|apply pow_R1_Rle; lra]. } simpl INR. lra.
  - exists res. split; [exact E|]. split; [exact Z|]. specialize (H 0%nat 1%nat ltac:(simpl; lia) ltac:(simpl; lia)). change (snd (ssize exM (SW 0))) with 2%nat in H. rewrite S1, S2 in H. replace (INR 2) with 2 in H by (simpl; lra). apply H.
    + intros [|[|k]] Hk; [rewrite G0, G1|rewrite G1, G2|lia]; split; vm_compute; reflexivity.
    + change 1000%nat with (3 + 997)%nat. rewrite pow_add. pose proof (pow_R1_Rle 2 997 ltac:(lra)). lra.
Qed.
Print Assumptions C91_product_case.
(** NaN in the first row and second column: the same element of the square is NaN, and that in the second row is not. *)
Example C91_product_nan_case : match sprod exN (SW 0) (SW 0) with Ret res => is_nan (get res (0, 1)%nat : double) = true /\ is_finite (get res (1, 1)%nat : double) = true | _ => False end.
Proof. vm_compute. split; reflexivity. Qed.
