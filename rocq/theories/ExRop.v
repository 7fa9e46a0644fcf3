(** ExRop.v - the theorems of PropRop.v at work. *)
From Coq Require Import List Arith Lia Bool ZArith QArith Qcanon Reals Lra.
From Verif Require Import Base BaseFacts SMap SpModel SpSpec VecModel VecSpec ConvSpec StepSpec FpSpec LufSpec RopSpec PropRop PropLuf.
Import ListNotations.
Local Open Scope R_scope.

(** [[4, 0, 1], [0, 2, 0]] stored by a map *)
Definition exA (rnd : R -> R) : mems (FNum rnd) := [mkS (N:=FNum rnd) false (2,3)%nat [((0,0)%nat,4);((0,2)%nat,1);((1,1)%nat,2)]].
Lemma exA_ok rnd : mems_ok (exA rnd).
Proof.
  intros [|[|id]]; cbn [obj nth exA sdat]; try exact I.
  repeat (simpl; split); simpl; intros; repeat match goal with H : _ \/ _ |- _ => destruct H as [H|H] | H : False |- _ => destruct H | H : (_, _) = (_, _) |- _ => injection H as; subst end; unfold before; simpl; auto; try lia.
Qed.
Lemma exA_range rnd : in_range (exA rnd) (SW 0).
Proof.
  split.
  - intros k x H. simpl in H. repeat (destruct H as [H|H]; [injection H as <- _; simpl; lia|]). contradiction.
  - intros; exact I.
Qed.
(** The components of A (3, 1, -2) in doubles: 10 and 2 up to gam 4 u times 14 and 2. *)
Example C85_case : exists w : list R, smulv (exA binary53) (SW 0) [3; 1; -2] = Ret w /\ length w = 2%nat /\
  Rabs (cmpR w 0 - 10) <= gam 4 (/ 2 ^ 53) * 14 /\ Rabs (cmpR w 1 - 2) <= gam 4 (/ 2 ^ 53) * 2.
Proof.
  assert (P : 16 < 2 ^ 53) by (replace 53%nat with (4 + 49)%nat by reflexivity; rewrite pow_add; pose proof (Rlt_pow 2 0 49 ltac:(lra) ltac:(lia)); simpl in *; lra).
  assert (U : 0 <= / 2 ^ 53) by (left; apply Rinv_0_lt_compat; lra).
  assert (NU : INR 4 * / 2 ^ 53 < 1). { apply Rmult_lt_reg_r with (2 ^ 53); [lra|]. rewrite Rmult_assoc, Rinv_l by lra. simpl INR. lra. }
  destruct (C85_matrix_times_vector binary53 _ (exA binary53) (SW 0) [3; 1; -2] C84_binary53 U (exA_ok _) (exA_range _) eq_refl NU) as [w [E [L H]]].
  exists w. split; [exact E|]. split; [exact L|]. assert (W0 := H 0%nat ltac:(simpl; lia)). assert (W1 := H 1%nat ltac:(simpl; lia)).
  set (G := gam 4 (/ 2 ^ 53)) in *.
  change (length [3; 1; -2]) with 3%nat in W0, W1. change (gam (S 3) (/ 2 ^ 53)) with G in W0, W1.
  assert (S0 : rsum 3 (fun c => sget (exA binary53) (SW 0) (0%nat, c) * cmpR [3; 1; -2] c) = 10). { change (0 + 4 * 3 + 0 * 1 + 1 * -2 = 10). ring. }
  assert (S1 : rsum 3 (fun c => sget (exA binary53) (SW 0) (1%nat, c) * cmpR [3; 1; -2] c) = 2). { change (0 + 0 * 3 + 2 * 1 + 0 * -2 = 2). ring. }
  assert (T0 : rsum 3 (fun c => Rabs (sget (exA binary53) (SW 0) (0%nat, c) * cmpR [3; 1; -2] c)) = 14). { change (0 + Rabs (4 * 3) + Rabs (0 * 1) + Rabs (1 * -2) = 14). rewrite (Rabs_pos_eq (4*3)), (Rabs_pos_eq (0 * 1)), (Rabs_left (1 * -2)) by lra. ring. }
  assert (T1 : rsum 3 (fun c => Rabs (sget (exA binary53) (SW 0) (1%nat, c) * cmpR [3; 1; -2] c)) = 2). { change (0 + Rabs (0 * 3) + Rabs (2 * 1) + Rabs (0 * -2) = 2). rewrite (Rabs_pos_eq (0*3)), (Rabs_pos_eq (2 * 1)), (Rabs_pos_eq (0 * -2)) by lra. ring. }
  rewrite S0, T0 in W0. rewrite S1, T1 in W1. split; assumption.
Qed.
Print Assumptions C85_case.
(** The hypotheses of the other theorems are met by the same matrix and by the vector (1, 1) below. *)
Example C85_hypotheses : forall rnd, mems_ok (exA rnd) /\ in_range (exA rnd) (SW 0) /\ row_capable (exA rnd) (SW 0) = true /\
  well_formed (N:=FNum rnd) [[1; 1]; [1; -1]] (VW 0) /\ well_formed (N:=FNum rnd) [[1; 1]; [1; -1]] (VW 1) /\
  elements (N:=FNum rnd) [[1; 1]; [1; -1]] (VW 0) [1; 1] /\ elements (N:=FNum rnd) [[1; 1]; [1; -1]] (VW 1) [1; -1].
Proof.
  intros rnd. split; [apply exA_ok|]. split; [apply exA_range|]. split; [reflexivity|]. split; [simpl; lia|]. split; [simpl; lia|].
  split; (split; [reflexivity|]); intros i Hi; simpl in Hi; destruct i as [|[|]]; reflexivity || lia.
Qed.
(** The error of a scalar product is not small relative to the scalar product itself: whatever the constant, products that cancel exceed it. *)
Theorem C85_relative_to_result_refuted : forall u, 0 < u -> exists rnd, relative rnd u /\
  exists r : R, vdot (N:=FNum rnd) [[1; 1]; [1; -1]] (VW 0) (VW 1) = Ret r /\ forall K, ~ Rabs (r - (1 * 1 + 1 * -1)) <= K * Rabs (1 * 1 + 1 * -1).
Proof.
  intros u U. exists (fun z => z * (1 + u)). split.
  - intros z. replace (z * (1 + u) - z) with (u * z) by ring. rewrite Rabs_mult, (Rabs_pos_eq u) by lra. lra.
  - eexists. split; [reflexivity|]. intros K H. replace (1 * 1 + 1 * -1) with 0 in H by ring. rewrite Rabs_R0, Rmult_0_r in H.
    match type of H with Rabs ?z <= 0 => assert (Z : z = u * ((1 + u) * (1 + u))) end.
    { cbn. ring. }
    rewrite Z in H. assert (0 < u * ((1 + u) * (1 + u))) by (apply Rmult_lt_0_compat; [lra|apply Rmult_lt_0_compat; lra]). rewrite Rabs_pos_eq in H by lra. lra.
Qed.
Print Assumptions C85_relative_to_result_refuted.
