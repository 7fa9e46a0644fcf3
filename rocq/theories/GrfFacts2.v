(** GrfFacts2.v - the Gragg solver in rounded arithmetic: roundings of one step, runs. *)
From Coq Require Import List Arith Bool ZArith Lia Reals Lra.
From Verif Require Import Base BaseFacts VecModel VOps NewtModel NewtFacts ImpFacts RkModel RkSpec StepSpec ExtModel ConvSpec ConvFacts FpSpec IfpSpec IfpFacts3 IfpFacts5 GrfSpec.
Import ListNotations.
Local Open Scope R_scope.
Notation bnd := FpSpec.bound.

Section R1.
Context (rnd : R -> R) (u eta : R).
Hypothesis RD : rounds rnd u eta.
Hypothesis U0 : 0 <= u.
Hypothesis E0 : 0 <= eta.
Notation w := (u + eta).
Hypothesis W1 : w <= 1.
Lemma axpy n (x f : list R) (a : R) : length x = n -> length f = n ->
  exists z : list R, ladd (N:=FNum rnd) x (lscale (N:=FNum rnd) f a) = Ret z /\ length z = n /\ forall j, (j < n)%nat -> cmpR z j = rnd (cmpR x j + rnd (cmpR f j * a)).
Proof.
  intros Lx Lf. assert (LL : (length x <= length (lscale (N:=FNum rnd) f a))%nat) by (rewrite (lscale_length (N:=FNum rnd)); change (nT (FNum rnd)) with R; lia).
  eexists. split; [exact (lzip_ok (N:=FNum rnd) (nadd (FNum rnd)) x _ LL)|]. split; [rewrite map_length, seq_length; exact Lx|]. intros j Hj. unfold cmpR at 1. rewrite nth_map_seq by (change (j < @length R x)%nat; lia). 
  change (nadd (FNum rnd)) with (fun p q : R => rnd (p + q)). cbv beta. change (n0 (FNum rnd)) with 0. f_equal. unfold cmpR. f_equal. unfold lscale. change (nT (FNum rnd)) with R.
  rewrite nth_indep with (d' := rnd (0 * a)) by (rewrite map_length, Lf; exact Hj). rewrite (map_nth (fun v : R => rnd (v * a))). reflexivity.
Qed.
Variables (h B Gp : R).
Hypothesis H0 : 0 <= h.
Hypothesis B0 : 0 <= B.
Hypothesis G0 : 0 <= Gp.
Notation Q := ((1 + B + Gp) * (1 + h)).
Lemma Qfacts : 1 <= Q /\ B <= Q /\ Gp * (1 + h) <= Q /\ Gp * h <= Q /\ B + Gp * (1 + h) + 1 <= Q /\ 0 <= Gp * h.
Proof. assert (0 <= Gp * h) by (apply Rmult_le_pos; lra). assert (0 <= B * h) by (apply Rmult_le_pos; lra). lra. Qed.
Lemma full x f : Rabs x <= B -> Rabs f <= Gp -> Rabs (rnd (x + rnd (f * h)) - (x + h * f)) <= 4 * (Q * w).
Proof.
  intros Hx Hf. destruct Qfacts as (Q1 & Q2 & Q3 & Q4 & Q5 & Q6). assert (W0 : 0 <= w) by lra.
  assert (Hh : Rabs h <= h) by (rewrite Rabs_right; lra). pose proof (mul_le f h _ _ Hf Hh) as M. pose proof (rnd_err rnd u eta RD U0 E0 _ _ M) as R1. pose proof (abs_shift _ _ _ _ R1 M) as S1. 
  assert (C1 : w * (1 + Gp * h) <= w * Q) by (apply Rmult_le_compat_l; lra).
  assert (C2 : w * Q <= 1 * Q) by (apply Rmult_le_compat_r; lra).
  assert (S2 : Rabs (x + rnd (f * h)) <= 3 * Q) by (eapply Rle_trans; [apply Rabs_triang|]; lra).
  assert (S3 : Rabs (x + rnd (f * h)) <= 2 * Q). { eapply Rle_trans; [apply Rabs_triang|]. lra. }
  pose proof (rnd_err rnd u eta RD U0 E0 _ _ S3) as R2.
  replace (rnd (x + rnd (f * h)) - (x + h * f)) with ((rnd (x + rnd (f * h)) - (x + rnd (f * h))) + (rnd (f * h) - f * h)) by ring.
  assert (C3 : w * (1 + 2 * Q) <= w * (3 * Q)) by (apply Rmult_le_compat_l; lra).
  eapply Rle_trans; [apply Rabs_triang|]. lra.
Qed.
Lemma h2_err : Rabs (rnd (h / 2) - h / 2) <= w * (1 + h) /\ Rabs (rnd (h / 2)) <= 2 * (1 + h).
Proof.
  assert (Hh : Rabs (h / 2) <= h) by (rewrite Rabs_right; lra). pose proof (rnd_err rnd u eta RD U0 E0 _ _ Hh) as R1. split; [exact R1|]. pose proof (abs_shift _ _ _ _ R1 Hh).
  assert (w * (1 + h) <= 1 * (1 + h)) by (apply Rmult_le_compat_r; lra). lra.
Qed.
Lemma half k x f : (1 <= k) -> Rabs x <= k * Q -> Rabs f <= Gp -> Rabs (rnd (x + rnd (f * rnd (h / 2))) - (x + h / 2 * f)) <= (k + 9) * (Q * w).
Proof.
  intros Hk Hx Hf. destruct Qfacts as (Q1 & Q2 & Q3 & Q4 & Q5 & Q6). assert (W0 : 0 <= w) by lra. destruct h2_err as [D1 D2]. set (h2 := rnd (h / 2)) in *.
  pose proof (mul_le f h2 _ _ Hf D2) as M. pose proof (rnd_err rnd u eta RD U0 E0 _ _ M) as R1. pose proof (abs_shift _ _ _ _ R1 M) as S1.
  assert (C1 : w * (1 + Gp * (2 * (1 + h))) <= w * (3 * Q)) by (apply Rmult_le_compat_l; lra).
  assert (C1' : w * (1 + Gp * (2 * (1 + h))) <= w * (2 * Q)) by (apply Rmult_le_compat_l; lra).
  assert (C2 : w * Q <= 1 * Q) by (apply Rmult_le_compat_r; lra).
  assert (S3 : Rabs (x + rnd (f * h2)) <= (k + 4) * Q). { eapply Rle_trans; [apply Rabs_triang|]. lra. }
  pose proof (rnd_err rnd u eta RD U0 E0 _ _ S3) as R2.
  assert (D3 : Rabs (f * h2 - f * (h / 2)) <= Gp * (w * (1 + h))) by (rewrite <- Rmult_minus_distr_l; apply mul_le; assumption).
  assert (C4 : Gp * (w * (1 + h)) <= w * Q) by (replace (Gp * (w * (1 + h))) with (w * (Gp * (1 + h))) by ring; apply Rmult_le_compat_l; lra).
  replace (rnd (x + rnd (f * h2)) - (x + h / 2 * f)) with ((rnd (x + rnd (f * h2)) - (x + rnd (f * h2))) + ((rnd (f * h2) - f * h2) + (f * h2 - f * (h / 2)))) by field.
  assert (C3 : w * (1 + (k + 4) * Q) <= w * ((k + 5) * Q)) by (apply Rmult_le_compat_l; lra).
  eapply Rle_trans; [apply Rabs_triang|]. eapply Rle_trans; [apply Rplus_le_compat_l; apply Rabs_triang|].
  replace ((k + 9) * (Q * w)) with (w * ((k + 5) * Q) + (w * (2 * Q) + w * Q) + w * Q) by ring. assert (0 <= w * Q) by (apply Rmult_le_pos; lra). lra.
Qed.
(** both halves of an inner step *)
Lemma halves x f : Rabs x <= B -> Rabs f <= Gp -> let x1 := rnd (x + rnd (f * rnd (h / 2))) in Rabs x1 <= 12 * Q /\ Rabs (x1 - (x + h / 2 * f)) <= 10 * (Q * w) /\ Rabs (rnd (x1 + rnd (f * rnd (h / 2))) - (x + h * f)) <= 31 * (Q * w).
Proof.
  intros Hx Hf x1. destruct Qfacts as (Q1 & Q2 & Q3 & Q4 & Q5 & Q6). assert (W0 : 0 <= w) by lra. assert (C2 : w * Q <= 1 * Q) by (apply Rmult_le_compat_r; lra).
  assert (Hx1 : Rabs x <= 1 * Q) by lra. pose proof (half 1 x f ltac:(lra) Hx1 Hf) as E1. fold x1 in E1.
  assert (S0 : Rabs (x + h / 2 * f) <= Q). { eapply Rle_trans; [apply Rabs_triang|]. assert (Rabs (h / 2 * f) <= h * Gp) by (apply mul_le; [rewrite Rabs_right; lra|exact Hf]). lra. }
  pose proof (abs_shift _ _ _ _ E1 S0) as S1. assert (S2 : Rabs x1 <= 12 * Q) by lra. assert (S3 : Rabs x1 <= 11 * Q) by lra. split; [exact S2|]. split; [lra|].
  pose proof (half 11 x1 f ltac:(lra) S3 Hf) as E2. assert (WQ : 0 <= Q * w) by (apply Rmult_le_pos; lra).
  replace (rnd (x1 + rnd (f * rnd (h / 2))) - (x + h * f)) with ((rnd (x1 + rnd (f * rnd (h / 2))) - (x1 + h / 2 * f)) + (x1 - (x + h / 2 * f))) by field.
  eapply Rle_trans; [apply Rabs_triang|]. lra.
Qed.
(** initialState with smoothing *)
Lemma smooth_err x x1 : Rabs x <= B -> Rabs x1 <= 12 * Q -> Rabs (rnd (rnd (x * / 2) + rnd (x1 * / 2)) - (x + x1) / 2) <= 30 * (Q * w).
Proof.
  intros Hx Hx1. destruct Qfacts as (Q1 & Q2 & Q3 & Q4 & Q5 & Q6). assert (W0 : 0 <= w) by lra. assert (C2 : w * Q <= 1 * Q) by (apply Rmult_le_compat_r; lra). assert (WQ : 0 <= w * Q) by (apply Rmult_le_pos; lra).
  assert (Hh : Rabs (/ 2) <= / 2) by (rewrite Rabs_right; lra). pose proof (mul_le x (/ 2) _ _ Hx Hh) as M1. pose proof (mul_le x1 (/ 2) _ _ Hx1 Hh) as M2.
  pose proof (rnd_err rnd u eta RD U0 E0 _ _ M1) as R1. pose proof (rnd_err rnd u eta RD U0 E0 _ _ M2) as R2.
  assert (C3 : w * (1 + B * / 2) <= w * (Q * (3 / 2))) by (apply Rmult_le_compat_l; lra).
  assert (C4 : w * (1 + 12 * Q * / 2) <= w * (Q * 7)) by (apply Rmult_le_compat_l; lra).
  pose proof (abs_shift _ _ _ _ R1 M1) as S1. pose proof (abs_shift _ _ _ _ R2 M2) as S2.
  assert (S3 : Rabs (rnd (x * / 2) + rnd (x1 * / 2)) <= 15 * Q) by (eapply Rle_trans; [apply Rabs_triang|]; lra). pose proof (rnd_err rnd u eta RD U0 E0 _ _ S3) as R3.
  assert (C5 : w * (1 + 15 * Q) <= w * (Q * 16)) by (apply Rmult_le_compat_l; lra).
  replace (rnd (rnd (x * / 2) + rnd (x1 * / 2)) - (x + x1) / 2) with ((rnd (rnd (x * / 2) + rnd (x1 * / 2)) - (rnd (x * / 2) + rnd (x1 * / 2))) + ((rnd (x * / 2) - x * / 2) + (rnd (x1 * / 2) - x1 * / 2))) by field.
  eapply Rle_trans; [apply Rabs_triang|]. eapply Rle_trans; [apply Rplus_le_compat_l; apply Rabs_triang|]. lra.
Qed.
End R1.
