(** ExVd2.v - the theorems of PropVd2.v at work, and what happens outside their conditions. *)
From Coq Require Import List Arith Lia ZArith Reals Lra.
From Flocq Require Import Core IEEE754.BinarySingleNaN.
From Verif Require Import Base SMap SpModel SpSpec VecModel ConvSpec LufSpec IeeeSpec VdSpec VdFacts2 ExVd PropVd2.
Import ListNotations.
Local Open Scope R_scope.

(** [[3/2, 2], [0, 1]] stored by a map, scaled by 1/2 when asked for, times (2, -1/4). *)
Definition exM : mems DNum := [mkS (N:=DNum) false (2,2)%nat [((0,0)%nat, dbl 3 (-1)); ((0,1)%nat, dbl 2 0); ((1,1)%nat, dbl 1 0)]].
Lemma exM_ok (x y z : double) : mems_ok (N:=DNum) [mkS (N:=DNum) false (2,2)%nat [((0,0)%nat, x); ((0,1)%nat, y); ((1,1)%nat, z)]].
Proof.
  intros [|[|id]]; cbn [obj nth sdat]; try exact I.
  repeat (simpl; split); simpl; intros; repeat match goal with H : _ \/ _ |- _ => destruct H as [H|H] | H : False |- _ => destruct H | H : (_, _) = (_, _) |- _ => injection H as; subst end; unfold before; simpl; auto; try lia.
Qed.
Lemma exM_range (x y z : double) : SpSpec.in_range (N:=DNum) [mkS (N:=DNum) false (2,2)%nat [((0,0)%nat, x); ((0,1)%nat, y); ((1,1)%nat, z)]] (SW 0).
Proof.
  split.
  - intros k w H. simpl in H. repeat (destruct H as [H|H]; [injection H as <- _; simpl; lia|]). contradiction.
  - intros; exact I.
Qed.
Definition exv : list double := [dbl 1 1; dbl (-1) (-2)].
Example C91_matrix_case : exists w : list double, smulv exM (SW 0) exv = Ret w /\ length w = 2%nat /\ is_finite (nth 0 w dzero) = true /\
  Rabs (val w 0 - 5 / 2) <= gam 3 (/ 2 ^ 53) * (7 / 2) + 2 * / 2 ^ 1073.
Proof.
  assert (V0 : B2R (dbl 3 (-1)) = 3 / 2) by (vm_compute; lra). assert (V1 : B2R (dbl 2 0) = 2) by (vm_compute; lra).
  assert (W0 : val exv 0 = 2) by (unfold val; vm_compute; lra). assert (W1 : val exv 1 = - / 4) by (unfold val; vm_compute; lra).
  assert (G0 : (sget exM (SW 0) (0, 0)%nat : double) = dbl 3 (-1)) by reflexivity. assert (G1 : (sget exM (SW 0) (0, 1)%nat : double) = dbl 2 0) by reflexivity.
  assert (S1 : rsum 2 (fun c => B2R (sget exM (SW 0) (0%nat, c) : double) * val exv c) = 5 / 2) by (cbn [rsum]; rewrite G0, G1, V0, V1, W0, W1; lra).
  assert (S2 : rsum 2 (fun c => Rabs (B2R (sget exM (SW 0) (0%nat, c) : double) * val exv c)) = 7 / 2).
  { cbn [rsum]. rewrite G0, G1, V0, V1, W0, W1. rewrite (Rabs_pos_eq (3 / 2 * 2)), (Rabs_left (2 * - / 4)) by lra. lra. }
  assert (FV : all_finite exv) by (intros x [<-|[<-|[]]]; vm_compute; reflexivity).
  destruct (C91_matrix_times_vector exM (SW 0) exv (exM_ok _ _ _) (exM_range _ _ _) eq_refl FV) as (w & E & L & H).
  - change (INR 3 * / 2 ^ 53 <= / 4). replace (/ 2 ^ 53) with (/ 16 * / 2 ^ 49) by (change 53%nat with (4 + 49)%nat; rewrite pow_add; field; apply pow_nonzero; lra).
    assert (0 < / 2 ^ 49 <= 1). { split; [apply Rinv_0_lt_compat, pow_lt; lra|]. rewrite <- Rinv_1. apply Rinv_le_contravar; [lra|apply pow_R1_Rle; lra]. } simpl INR. lra.
  - exists w. split; [exact E|]. split; [exact L|]. destruct (H 0%nat ltac:(simpl; lia)) as [F B].
    + intros [|[|c]] Hc; [rewrite G0|rewrite G1|simpl in Hc; lia]; vm_compute; reflexivity.
    + change (length exv) with 2%nat. rewrite S2. change 1000%nat with (2 + 998)%nat. rewrite pow_add. pose proof (pow_R1_Rle 2 998 ltac:(lra)). lra.
    + split; [exact F|]. change (length exv) with 2%nat in B. rewrite S1, S2 in B. exact B.
Qed.
Print Assumptions C91_matrix_case.
Example C91_matrix_nan_case : exists w : list double, smulv exM (SW 0) [dbl 1 1; B754_nan] = Ret w /\ nth 0 w dzero = B754_nan /\ nth 1 w dzero = B754_nan.
Proof.
  destruct (C91_matrix_nan exM (SW 0) [dbl 1 1; B754_nan] (exM_ok _ _ _) (exM_range _ _ _) eq_refl) as (w & E & H). exists w. split; [exact E|].
  split; [apply (H 0 1 (dbl 2 0))%nat|apply (H 1 1 (dbl 1 0))%nat]; simpl; auto.
Qed.
(** Elements that are not stored are not multiplied: NaN in the vector does not reach the rows without a stored element in that column. *)
Theorem C91_matrix_nan_refuted : ~ (forall (m : mems DNum) (e : sexpr DNum) (v w : list double), mems_ok m -> SpSpec.in_range m e -> length v = snd (ssize m e) ->
  smulv m e v = Ret w -> forall r c, (r < fst (ssize m e))%nat -> (c < snd (ssize m e))%nat -> nth c v dzero = B754_nan -> nth r w dzero = B754_nan).
Proof.
  intros H. assert (Q : match smulv exM (SW 0) [(B754_nan : double); dbl 1 0] with Ret [_; b] => is_nan (b : double) | _ => true end = false) by (vm_compute; reflexivity).
  destruct (smulv exM (SW 0) [(B754_nan : double); dbl 1 0]) as [w| |] eqn:E; [|discriminate Q|discriminate Q].
  pose proof (H exM (SW 0) [(B754_nan : double); dbl 1 0] w (exM_ok _ _ _) (exM_range _ _ _) eq_refl E 1 0 ltac:(simpl; lia) ltac:(simpl; lia) eq_refl)%nat as N.
  destruct w as [|a [|b [|c w]]]; try discriminate Q. cbn [nth] in N. rewrite N in Q. discriminate Q.
Qed.
(** Finite elements are not enough: 2^600 times 2^600 overflows. *)
Theorem C91_matrix_overflow_refuted : ~ (forall (m : mems DNum) (e : sexpr DNum) (v w : list double), mems_ok m -> SpSpec.in_range m e -> length v = snd (ssize m e) -> all_finite v ->
  (forall r c, is_finite (sget m e (r, c) : double) = true) -> smulv m e v = Ret w -> all_finite w).
Proof.
  intros H. set (M := [mkS (N:=DNum) false (2,2)%nat [((0,0)%nat, dbl 1 600); ((0,1)%nat, dzero); ((1,1)%nat, dzero)]]).
  assert (Q : match smulv M (SW 0) [dbl 1 600; dzero] with Ret (a :: _) => is_finite (a : double) | _ => true end = false) by (vm_compute; reflexivity).
  destruct (smulv M (SW 0) [dbl 1 600; dzero]) as [w| |] eqn:E; [|discriminate Q|discriminate Q].
  assert (F : all_finite w).
  { apply (H M (SW 0) [dbl 1 600; dzero] w (exM_ok _ _ _) (exM_range _ _ _) eq_refl); [| |exact E].
    - intros x [<-|[<-|[]]]; vm_compute; reflexivity.
    - intros r c. unfold sget. cbn [sscale sbase to_base obj nth M]. unfold get, sfind. cbn [fast sdat]. destruct r as [|[|r]], c as [|[|c]]; vm_compute; reflexivity. }
  destruct w as [|a w]; [discriminate Q|]. rewrite (F a (or_introl eq_refl)) in Q. discriminate Q.
Qed.
