(** ImpFacts2.v - stability of the alpha method on linear systems; steps of the solver. *)
From Coq Require Import List Arith Bool ZArith QArith Qcanon Lia Qfield Permutation.
From Verif Require Import Base BaseFacts VecModel VOps MapModel MapFacts NewtModel NewtSpec NewtFacts NewtFacts4 RkModel RkSpec RkFacts ExtFacts ExtFacts5 ImpModel ImpSpec ImpFacts.
Import ListNotations.
Local Open Scope nat_scope.

Lemma energy_core n A (h al : Qc) (X0 X1 F0 F1 : list Qc) :
  (forall j, j < n -> cmp_ F0 j = qsum n (fun k => A j k * cmp_ X0 k)%Qc) -> (forall j, j < n -> cmp_ F1 j = qsum n (fun k => A j k * cmp_ X1 k)%Qc) ->
  (forall j, j < n -> cmp_ X1 j = (cmp_ X0 j + h * ((1 - al) * cmp_ F0 j + al * cmp_ F1 j))%Qc) ->
  let y := fun j => ((1 - al) * cmp_ X0 j + al * cmp_ X1 j)%Qc in
  let dl := fun j => (cmp_ X1 j - cmp_ X0 j)%Qc in
  energy n X1 = (energy n X0 + (1 + 1) * (h * qsum n (fun j => y j * qsum n (fun k => A j k * y k))) + (1 - (al + al)) * qsum n (fun j => dl j * dl j))%Qc.
Proof.
  intros V0 V1 U y dl.
  assert (DL : forall j, j < n -> dl j = (h * qsum n (fun k => A j k * y k))%Qc).
  { intros j Hj. unfold dl. rewrite (U j Hj), (V0 j Hj), (V1 j Hj).
    transitivity (h * ((1 - al) * qsum n (fun k => A j k * cmp_ X0 k) + al * qsum n (fun k => A j k * cmp_ X1 k)))%Qc; [ring|].
    f_equal. rewrite <- !qsum_scale, <- qsum_add. apply qsum_ext. intros k Hk. unfold y. ring. }
  unfold energy.
  transitivity (qsum n (fun j => cmp_ X0 j * cmp_ X0 j) + (1 + 1) * qsum n (fun j => y j * dl j) + (1 - (al + al)) * qsum n (fun j => dl j * dl j))%Qc.
  - rewrite <- !qsum_scale, <- !qsum_add. apply qsum_ext. intros j Hj. unfold y, dl. ring.
  - f_equal. f_equal. f_equal. rewrite <- qsum_scale. apply qsum_ext. intros j Hj. rewrite (DL j Hj). ring.
Qed.
Lemma qsum_sq_nonneg k (g : nat -> Qc) : (0 <= qsum k (fun j => g j * g j))%Qc.
Proof.
  induction k as [|k I]; cbn [qsum]; [apply Qcle_refl|]. 
  assert (0 <= g k * g k)%Qc by (clear; destruct (Qclt_le_dec (g k) 0); qcnra). revert I H. generalize (g k * g k)%Qc (qsum k (fun j => g j * g j)%Qc). intros. qclra.
Qed.
(** Updates of linear systems *)
Section Stable.
Context (nd nf : nat) (A : nat -> nat -> Qc) (f : Qc -> list Qc -> Outcome (list Qc)) (h al t0 t1 : Qc) (X0 X1 F0 F1 : list Qc).
Let n := 2 * nd + nf.
Hypothesis SO : second_order nd nf f.
Hypothesis LR : linear_rhs n A (fun _ _ => 0%Qc) f.
Hypothesis L0 : length X0 = n.
Hypothesis E0 : f t0 X0 = Ret F0.
Hypothesis E1 : f t1 X1 = Ret F1.
Hypothesis AU : alpha_update nd nf h al X0 F0 X1 F1.
Lemma update_energy :
  let y := fun j => ((1 - al) * cmp_ X0 j + al * cmp_ X1 j)%Qc in
  let dl := fun j => (cmp_ X1 j - cmp_ X0 j)%Qc in
  energy n X1 = (energy n X0 + (1 + 1) * (h * qsum n (fun j => y j * qsum n (fun k => A j k * y k))) + (1 - (al + al)) * qsum n (fun j => dl j * dl j))%Qc.
Proof.
  assert (L1 : length X1 = n) by apply AU.
  destruct (LR t0 X0 L0) as (G0 & Q0 & _ & V0). destruct (LR t1 X1 L1) as (G1 & Q1 & _ & V1). rewrite Q0 in E0. rewrite Q1 in E1. inversion E0; inversion E1; subst G0 G1.
  apply (energy_core n A h al X0 X1 F0 F1).
  - intros j Hj. rewrite (V0 j Hj). ring.
  - intros j Hj. rewrite (V1 j Hj). ring.
  - apply (proj1 (update_full nd nf f h al X0 X1 F0 F1 t0 t1 SO L0 L1 Q0 Q1)). exact AU.
Qed.
Lemma stable : dissipative n A -> (0 <= h)%Qc -> (1 <= al + al)%Qc -> (energy n X1 <= energy n X0)%Qc.
Proof.
  intros DI H0 HA. pose proof update_energy as B. cbv zeta in B. rewrite B. clear B.
  set (y := fun j => ((1 - al) * cmp_ X0 j + al * cmp_ X1 j)%Qc).
  pose proof (DI y) as D1. pose proof (qsum_sq_nonneg n (fun j => cmp_ X1 j - cmp_ X0 j)%Qc) as S1. cbv beta in D1, S1.
  change (fun j => ((((1 - al) * cmp_ X0 j + al * cmp_ X1 j)) * qsum n (fun k => A j k * ((1 - al) * cmp_ X0 k + al * cmp_ X1 k)))%Qc)
    with (fun j => (y j * qsum n (fun k => A j k * y k))%Qc).
  revert D1 S1 H0 HA. 
  generalize (qsum n (fun j => y j * qsum n (fun k => A j k * y k))%Qc) (qsum n (fun j => (cmp_ X1 j - cmp_ X0 j) * (cmp_ X1 j - cmp_ X0 j))%Qc) (energy n X0) h al.
  clear. intros. qcnra.
Qed.
Lemma conserved : conservative n A -> (al + al = 1)%Qc -> energy n X1 = energy n X0.
Proof.
  intros DI HA. pose proof update_energy as B. cbv zeta in B. rewrite B. clear B.
  rewrite (DI (fun j => ((1 - al) * cmp_ X0 j + al * cmp_ X1 j)%Qc)). rewrite HA. ring.
Qed.
End Stable.
