(** FpFacts6.v - right-hand sides in rounded arithmetic; small numbers in binary64. *)
From Coq Require Import List Arith Lia Bool ZArith QArith Qcanon Reals Lra.
From Flocq Require Import Core.
From Verif Require Import Base BaseFacts VecModel VOps NewtFacts NewtFacts4 RkModel RkSpec StepModel StepSpec ConvSpec ConvFacts ConvFacts3 FpSpec FpFacts FpFacts2 FpFacts3 FpFacts4.
Import ListNotations.
Local Open Scope R_scope.

Lemma dot_err A : 0 <= A -> forall count, exists K B, 0 <= K /\ 0 <= B /\ forall rnd u eta b (a x : nat -> R), rounds rnd u eta -> 0 <= u -> 0 <= eta -> u + eta <= 1 -> 0 <= b ->
  (forall j, (j < count)%nat -> Rabs (a j) <= A) -> (forall j, (j < count)%nat -> Rabs (x j) <= b) ->
  Rabs (dotF rnd count a x - rsum count (fun j => a j * x j)) <= K * ((1 + b) * (u + eta)) /\ Rabs (rsum count (fun j => a j * x j)) <= B * (1 + b).
Proof.
  intros HA. induction count as [|m [K [B [K0 [B0 I]]]]].
  - exists 0, 0. split; [lra|]. split; [lra|]. intros. simpl. rewrite Rminus_0_r, Rabs_R0. lra.
  - exists (2 * (K + (A + 1)) + (B + A) + 1), (B + A). split; [lra|]. split; [lra|].
    intros rnd u eta b a x RO U0 ET0 E1 Hb HAj HX. destruct (I rnd u eta b a x RO U0 ET0 E1 Hb) as [I1 I2]; [intros; apply HAj; lia|intros; apply HX; lia|].
    assert (ST : setting rnd u eta (1 + b) 0 0 0) by (split; [exact RO|]; split; [exact U0|]; split; [exact ET0|]; split; [exact E1|]; split; [lra|]; split; lra).
    assert (PM : Rabs (a m * x m) <= A * (1 + b)). { eapply Rle_trans; [apply abs_mul; [apply HAj; lia|apply HX; lia]|]. apply Rmult_le_compat_l; lra. }
    assert (R1 : Rabs (rnd (a m * x m) - a m * x m) <= (2 * 0 + A + 1) * ((1 + b) * (u + eta))).
    { apply (rnd_step rnd u eta (1 + b) 0 0 0 ST); [lra|lra|assumption| |assumption]. rewrite Rminus_diag_eq by reflexivity. rewrite Rabs_R0. lra. }
    cbn [dotF rsum]. split.
    + apply (rnd_step rnd u eta (1 + b) 0 0 0 ST); [lra|lra|lra| |].
      * replace (dotF rnd m a x + rnd (a m * x m) - (rsum m (fun j => a j * x j) + a m * x m)) with ((dotF rnd m a x - rsum m (fun j => a j * x j)) + (rnd (a m * x m) - a m * x m)) by ring.
        eapply Rle_trans; [apply Rabs_triang|]. lra.
      * eapply Rle_trans; [apply Rabs_triang|]. lra.
    + eapply Rle_trans; [apply Rabs_triang|]. lra.
Qed.
Lemma linear_accurate n M : exists K, 0 <= K /\ forall rnd u eta, rounds rnd u eta -> 0 <= u -> 0 <= eta -> u + eta <= 1 -> sized n (linearF rnd n M) /\ accurate n (K * (u + eta)) (linearR n M) (linearF rnd n M).
Proof.
  assert (EA : exists A, 0 <= A /\ forall i j, (i < n)%nat -> (j < n)%nat -> Rabs (M i j) <= A).
  { exists (rsum n (fun i => rsum n (fun j => Rabs (M i j)))). split; [apply rsum_nonneg; intros; apply rsum_nonneg; intros; apply Rabs_pos|].
    assert (G : forall m (h : nat -> R) i, (forall q, (q < m)%nat -> 0 <= h q) -> (i < m)%nat -> h i <= rsum m h).
    { induction m as [|m IH]; intros h i Hh Hi; [lia|]. simpl. assert (0 <= rsum m h) by (apply rsum_nonneg; intros; apply Hh; lia).
      destruct (Nat.eq_dec i m) as [->|NE]; [lra|]. assert (0 <= h m) by (apply Hh; lia). pose proof (IH h i (fun q Hq => Hh q (Nat.lt_lt_succ_r _ _ Hq)) ltac:(lia)). lra. }
    intros i j Hi Hj. eapply Rle_trans; [|apply (G n (fun i => rsum n (fun j => Rabs (M i j))) i); [intros; apply rsum_nonneg; intros; apply Rabs_pos|assumption]].
    apply (G n (fun j => Rabs (M i j)) j); [intros; apply Rabs_pos|assumption]. }
  destruct EA as [A [A0 HA]]. destruct (dot_err A A0 n) as [K [B [K0 [B0 HD]]]]. exists K. split; [assumption|]. intros rnd u eta RO U0 ET0 E1. split.
  - intros t x Lx. unfold linearF. rewrite map_length, seq_length. reflexivity.
  - intros t x b Lx BX j Hj. assert (b0 : 0 <= b) by (eapply Rle_trans; [apply Rabs_pos|apply (BX j Hj)]).
    unfold cmpR at 1 2, linearF, linearR.
    rewrite (nth_map_seq n (fun i => dotF rnd n (M i) (cmpR x)) 0 j Hj), (nth_map_seq n (fun i => rsum n (fun j => M i j * cmpR x j)) 0 j Hj).
    destruct (HD rnd u eta b (M j) (cmpR x) RO U0 ET0 E1 b0) as [H1 _]; [intros; apply HA; assumption|intros; apply BX; assumption|].
    eapply Rle_trans; [exact H1|]. pose proof (Rabs_pos t). replace (K * ((1 + b) * (u + eta))) with (K * (u + eta) * (1 + b)) by ring.
    apply Rmult_le_compat_l; [apply Rmult_le_pos; lra|lra].
Qed.
(** a component of known size, rounded once *)
Lemma rounded_accurate n f rnd u eta : (forall t x, length x = n -> bound n (f t x) 1) -> rounds rnd u eta -> 0 <= u -> 0 <= eta -> (forall t x, length x = n -> length (f t x) = n) ->
  accurate n (u + eta) f (fun t x => map rnd (f t x)).
Proof.
  intros B1 RO U0 ET0 SZ t x b Lx BX j Hj. assert (b0 : 0 <= b) by (eapply Rle_trans; [apply Rabs_pos|apply (BX j Hj)]).
  unfold cmpR at 1. rewrite (map_rnd rnd _ j (proj1 RO)). change (nth j (f t x) 0) with (cmpR (f t x) j). eapply Rle_trans; [apply (proj2 RO)|].
  pose proof (B1 t x Lx j Hj). pose proof (Rabs_pos t). assert (u * Rabs (cmpR (f t x) j) <= u * 1) by (apply Rmult_le_compat_l; assumption).
  apply Rle_trans with ((u + eta) * 1); [lra|]. apply Rmult_le_compat_l; lra.
Qed.

(** binary64 near 1 *)
#[local] Instance prec53 : Prec_gt_0 53 := eq_refl.
Lemma format1 : generic_format radix2 (FLT_exp (-1074) 53) 1.
Proof. change 1 with (bpow radix2 0). apply generic_format_bpow. unfold FLT_exp. simpl. lia. Qed.
Lemma b64_1 : binary64 1 = 1. Proof. apply round_generic; [auto with typeclass_instances|apply format1]. Qed.
Lemma b64_mono x y : x <= y -> binary64 x <= binary64 y. Proof. apply round_le; auto with typeclass_instances. Qed.
Lemma b64_small z : 0 <= z <= / 2 ^ 60 -> 0 <= binary64 z <= / 2 ^ 60.
Proof.
  intros [Z0 Z1]. assert (E0 : binary64 0 = 0) by (apply round_0; auto with typeclass_instances). split; [rewrite <- E0; apply b64_mono; assumption|].
  assert (E1 : binary64 (/ 2 ^ 60) = / 2 ^ 60).
  { assert (B : / 2 ^ 60 = bpow radix2 (-60)) by (change (-60)%Z with (Z.opp 60); rewrite bpow_opp, <- IZR_Zpower by discriminate; rewrite (pow_IZR 2 60); reflexivity).
    rewrite B. apply round_generic; [auto with typeclass_instances|]. apply generic_format_bpow. unfold FLT_exp. simpl. lia. }
  rewrite <- E1. apply b64_mono. assumption.
Qed.
Lemma b64_absorb z : 0 <= z <= / 2 ^ 60 -> binary64 (1 + z) = 1.
Proof.
  intros [Z0 Z1]. apply Rle_antisym; [|rewrite <- b64_1 at 1; apply b64_mono; lra].
  unfold binary64. apply round_N_le_midp; [auto with typeclass_instances|apply format1|].
  assert (S1 : succ radix2 (FLT_exp (-1074) 53) 1 = 1 + bpow radix2 (-52)).
  { unfold succ. rewrite Rle_bool_true by lra. f_equal. change 1 with (bpow radix2 0). rewrite ulp_bpow. reflexivity. }
  rewrite S1. assert (B : bpow radix2 (-52) = / 2 ^ 52) by (change (-52)%Z with (Z.opp 52); rewrite bpow_opp, <- IZR_Zpower by discriminate; rewrite (pow_IZR 2 52); reflexivity).
  rewrite B. assert (P : / 2 ^ 60 < / 2 ^ 53) by (apply Rinv_lt_contravar; [apply Rmult_lt_0_compat; apply pow_lt; lra|apply Rlt_pow; [lra|lia]]).
  assert (Q : / 2 ^ 52 = 2 * / 2 ^ 53) by (change (2 ^ 53) with (2 * 2 ^ 52); field; apply pow_nonzero; lra). lra.
Qed.
