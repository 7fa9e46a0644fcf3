(** ExVd.v - the theorems of PropVd.v at work, and what happens outside their conditions. *)
From Coq Require Import List Arith Lia ZArith Reals Lra.
From Flocq Require Import Core IEEE754.BinarySingleNaN.
From Verif Require Import Base VecModel VecSpec ConvSpec LufSpec IeeeSpec VdSpec VdFacts PropVd.
Import ListNotations.
Local Open Scope R_scope.

(** m 2^e *)
Definition dbl (m e : Z) : double := binary_normalize 53 1024 double_prec double_range mode_NE m e false.
Definition exV : mem DNum := [[dbl 3 (-1); dbl 2 0]; [dbl 1 1; dbl (-1) (-2)]].
Lemma exV_elements : elements exV (VW 0) [dbl 3 (-1); dbl 2 0] /\ elements exV (VW 1) [dbl 1 1; dbl (-1) (-2)].
Proof. split; (split; [reflexivity|]); intros i Hi; simpl in Hi; destruct i as [|[|]]; reflexivity || lia. Qed.
Lemma exV_finite : all_finite [dbl 3 (-1); dbl 2 0] /\ all_finite [dbl 1 1; dbl (-1) (-2)].
Proof. split; intros x [<-|[<-|[]]]; vm_compute; reflexivity. Qed.
(** 3/2 * 2 + 2 * (-1/4) = 5/2 *)
Example C91_case : exists r : double, vdot exV (VW 0) (VW 1) = Ret r /\ is_finite r = true /\ Rabs (B2R r - 5 / 2) <= gam 3 (/ 2 ^ 53) * (7 / 2) + 2 * / 2 ^ 1073.
Proof.
  assert (V0 : val [dbl 3 (-1); dbl 2 0] 0 = 3 / 2) by (unfold val; vm_compute; lra). assert (V1 : val [dbl 3 (-1); dbl 2 0] 1 = 2) by (unfold val; vm_compute; lra).
  assert (W0 : val [dbl 1 1; dbl (-1) (-2)] 0 = 2) by (unfold val; vm_compute; lra). assert (W1 : val [dbl 1 1; dbl (-1) (-2)] 1 = - / 4) by (unfold val; vm_compute; lra).
  destruct exV_elements as [E0 E1]. destruct exV_finite as [F0 F1].
  assert (S1 : rsum 2 (fun i => val [dbl 3 (-1); dbl 2 0] i * val [dbl 1 1; dbl (-1) (-2)] i) = 5 / 2) by (cbn [rsum]; rewrite V0, V1, W0, W1; lra).
  assert (S2 : rsum 2 (fun i => Rabs (val [dbl 3 (-1); dbl 2 0] i * val [dbl 1 1; dbl (-1) (-2)] i)) = 7 / 2).
  { cbn [rsum]. rewrite V0, V1, W0, W1. rewrite (Rabs_pos_eq (3 / 2 * 2)), (Rabs_left (2 * - / 4)) by lra. lra. }
  destruct (C91_dot exV (VW 0) (VW 1) _ _ ltac:(simpl; lia) ltac:(simpl; lia) ltac:(simpl; lia) E0 E1 F0 F1) as (r & E & F & B).
  - change (rsum 2 (fun i => Rabs (val [dbl 3 (-1); dbl 2 0] i * val [dbl 1 1; dbl (-1) (-2)] i)) <= 2 ^ 1000). rewrite S2. change 1000%nat with (2 + 998)%nat. rewrite pow_add. pose proof (pow_R1_Rle 2 998 ltac:(lra)). lra.
  - change (INR 3 * / 2 ^ 53 <= / 4). replace (/ 2 ^ 53) with (/ 16 * / 2 ^ 49) by (change 53%nat with (4 + 49)%nat; rewrite pow_add; field; apply pow_nonzero; lra).
    assert (0 < / 2 ^ 49 <= 1). { split; [apply Rinv_0_lt_compat, pow_lt; lra|]. rewrite <- Rinv_1. apply Rinv_le_contravar; [lra|apply pow_R1_Rle; lra]. } simpl INR. lra.
  - exists r. split; [exact E|]. split; [exact F|]. change (length [dbl 3 (-1); dbl 2 0]) with 2%nat in B. rewrite S1, S2 in B. exact B.
Qed.
Print Assumptions C91_case.
Definition is_ (o : Outcome double) (y : double) : bool := match o with Ret r => Beqb r y | _ => false end.
Example C91_norms_case : all_finite [dbl 3 (-1); dbl 2 0] /\ is_ (vinfnorm exV (VW 0)) (dbl 2 0) = true /\ is_ (vonenorm exV (VW 0)) (dbl 7 (-1)) = true /\ is_ (veuclsq exV (VW 0)) (dbl 25 (-2)) = true.
Proof. split; [apply exV_finite|]. vm_compute. repeat split. Qed.
Example C91_nan_case : vdot (N:=DNum) [[B754_nan; dzero]; [dzero; B754_infinity false]] (VW 0) (VW 1) = Ret (B754_nan : double).
Proof. vm_compute. reflexivity. Qed.
(** The euclidean norm of (2^600) is 2^600, but its computed square is infinite: the size of the elements is not enough. *)
Theorem C91_norm_overflow_refuted : ~ (forall (m : mem DNum) (e : vexpr DNum) (l : list double), well_formed m e -> elements m e l -> all_finite l ->
  exists r : double, veuclsq m e = Ret r /\ is_finite r = true).
Proof.
  intros H. destruct (H [[dbl 1 600]] (VW 0) [dbl 1 600]) as (r & E & F).
  - simpl. lia.
  - split; [reflexivity|]. intros [|i] Hi; [reflexivity|simpl in Hi; lia].
  - intros x [<-|[]]. vm_compute. reflexivity.
  - assert (Q : match veuclsq (N:=DNum) [[dbl 1 600]] (VW 0) with Ret r => is_finite r | _ => true end = false) by (vm_compute; reflexivity). rewrite E in Q. congruence.
Qed.
(** The euclidean norm of (2^-600) is computed as zero: a vector that is not zero has the norm zero. *)
Theorem C91_norm_underflow_refuted : ~ (forall (m : mem DNum) (e : vexpr DNum) (l : list double), well_formed m e -> elements m e l -> all_finite l ->
  forall r : double, veuclsq m e = Ret r -> B2R r = 0 -> forall x, In x l -> B2R x = 0).
Proof.
  intros H. assert (E : exists r : double, veuclsq (N:=DNum) [[dbl 1 (-600)]] (VW 0) = Ret r /\ r = B754_zero false) by (eexists; split; [vm_compute; reflexivity|reflexivity]). destruct E as (r & E & ->).
  assert (Z : B2R (dbl 1 (-600)) = 0).
  { apply (H [[dbl 1 (-600)]] (VW 0) [dbl 1 (-600)] ltac:(simpl; lia)) with (r := B754_zero false); [|intros x [<-|[]]; vm_compute; reflexivity|exact E|reflexivity|left; reflexivity].
    split; [reflexivity|]. intros [|i] Hi; [reflexivity|simpl in Hi; lia]. }
  assert (Q : match dbl 1 (-600) with B754_finite _ _ _ _ => true | _ => false end = true) by (vm_compute; reflexivity).
  destruct (dbl 1 (-600)) as [| | |s mm ee Hb]; try discriminate Q. simpl in Z. apply eq_0_F2R in Z. destruct s; discriminate Z.
Qed.
(** The maximum norm does not see NaN. *)
Theorem C91_infnorm_nan_refuted : ~ (forall (m : mem DNum) (e : vexpr DNum) (l : list double), well_formed m e -> elements m e l -> In (B754_nan : double) l -> vinfnorm m e = Ret (B754_nan : double)).
Proof.
  intros H. assert (E : vinfnorm (N:=DNum) [[B754_nan; Bone]] (VW 0) = Ret (B754_nan : double)).
  { apply (H _ _ [B754_nan; Bone]); [simpl; lia| |left; reflexivity]. split; [reflexivity|]. intros [|[|i]] Hi; [reflexivity|reflexivity|simpl in Hi; lia]. }
  assert (Q : match vinfnorm (N:=DNum) [[B754_nan; Bone]] (VW 0) with Ret r => is_finite r | _ => false end = true) by (vm_compute; reflexivity). rewrite E in Q. discriminate Q.
Qed.
