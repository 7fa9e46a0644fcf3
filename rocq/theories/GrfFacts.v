(** GrfFacts.v - the two-step recursion of the Gragg solver with perturbations. *)
From Coq Require Import List Arith Bool ZArith Lia Reals Lra.
From Verif Require Import Base BaseFacts VecModel VOps NewtModel NewtFacts RkModel RkSpec StepSpec ExtModel ConvSpec ConvFacts FpSpec HighFacts5 ImcSpec ImcFacts ImcFacts3 IfpSpec IfpFacts3 IfpFacts5 GraFacts.
Import ListNotations.
Local Open Scope R_scope.
Notation bnd := FpSpec.bound.

Section Pert.
Context (n : nat) (g : R -> list R -> list R) (X : R -> list R) (A : R -> nat -> R) (t0 t1 K M : R).
Hypothesis SO : solves n g X t0 t1.
Hypothesis K0 : 0 <= K.
Hypothesis M0 : 0 <= M.
Hypothesis SC : slope_changes n g X t0 t1 K.
Hypothesis CC : curvature_changes n g X A t0 t1 M.
Notation V u j := (cmpR (g u (X u)) j).
Context (L d h e B E : R) (y : nat -> list R) (m : nat).
Hypothesis L0 : 0 <= L.
Hypothesis D0 : 0 <= d.
Hypothesis H0 : 0 < h.
Hypothesis P0 : 0 <= e.
Hypothesis LIP : lipschitz_x n L g.
Hypothesis LEN : forall i, (i <= m)%nat -> length (y i) = n.
Hypothesis FIT : t0 + INR m * h <= t1.
Hypothesis Y0 : near n (y 0%nat) (X t0) d.
Notation tm i := (t0 + INR i * h).
Hypothesis Y1 : (1 <= m)%nat -> bnd n (y 0%nat) B -> forall j, (j < n)%nat -> Rabs (cmpR (y 1%nat) j - (cmpR (y 0%nat) j + h * cmpR (g t0 (y 0%nat)) j)) <= e.
Hypothesis YS : forall i, (i + 2 <= m)%nat -> bnd n (y i) B -> bnd n (y (i + 1)%nat) B -> forall j, (j < n)%nat ->
  Rabs (cmpR (y (i + 2)%nat) j - (cmpR (y i) j + 2 * h * cmpR (g (tm (i + 1)%nat) (y (i + 1)%nat)) j)) <= e.
Fixpoint pbound (i : nat) : R := match i with O => (1 + h * L) * d + K * (h * h) + e | S k => (1 + 2 * h * L) * pbound k + (2 * M * (h * h * h) + e) end.
Hypothesis PB : forall i, (i <= m)%nat -> pbound i <= E.
Hypothesis XB : forall t, t0 <= t <= t1 -> bnd n (X t) (B - E).
Lemma hl : 0 <= h * L. Proof. apply Rmult_le_pos; lra. Qed.
Lemma h3 : 0 <= 2 * M * (h * h * h). Proof. apply Rmult_le_pos; [lra|repeat apply Rmult_le_pos; lra]. Qed.
Lemma kh : 0 <= K * (h * h). Proof. apply Rmult_le_pos; [lra|nra]. Qed.
Lemma pbound_grows i : 0 <= pbound i /\ pbound i <= pbound (S i).
Proof.
  pose proof hl as HL. pose proof h3 as H3. pose proof kh as KH.
  assert (P : forall i, 0 <= pbound i).
  { induction i0 as [|k I]; cbn [pbound]; [assert (0 <= (1 + h * L) * d) by (apply Rmult_le_pos; lra); lra|]. assert (0 <= (1 + 2 * h * L) * pbound k) by (apply Rmult_le_pos; lra). lra. }
  split; [apply P|]. cbn [pbound]. pose proof (P i). assert (0 <= 2 * (h * L) * pbound i) by (apply Rmult_le_pos; lra). lra.
Qed.
Lemma ptm_in i : (i <= m)%nat -> t0 <= tm i <= t1.
Proof.
  intros Hi. pose proof (pos_INR i). split; [pose proof (Rmult_le_pos (INR i) h ltac:(assumption) ltac:(lra)); lra|]. eapply Rle_trans; [|exact FIT]. apply Rplus_le_compat_l. apply Rmult_le_compat_r; [lra|]. apply le_INR. exact Hi.
Qed.
Lemma pXL i : (i <= m)%nat -> length (X (tm i)) = n. Proof. intros Hi. apply (SO (tm i) (ptm_in i Hi)). Qed.
Lemma within i q : (i <= m)%nat -> q <= E -> near n (y i) (X (tm i)) q -> bnd n (y i) B.
Proof. intros Hi Hq N. apply bound_le with (B - E + q); [lra|]. apply near_bound with (X (tm i)); [exact N|]. apply XB. apply ptm_in. exact Hi. Qed.
Lemma ptwo_step : forall i, (i <= m)%nat -> near n (y i) (X (tm i)) (pbound i) /\ ((i + 1 <= m)%nat -> near n (y (i + 1)%nat) (X (tm (i + 1)%nat)) (pbound i)).
Proof.
  assert (E0 : tm 0%nat = t0) by (cbn [INR]; ring). pose proof hl as HL. pose proof kh as KH.
  assert (B0 : near n (y 0%nat) (X (tm 0%nat)) (pbound 0)).
  { rewrite E0. intros j Hj. eapply Rle_trans; [apply Y0; exact Hj|]. cbn [pbound]. pose proof (Rmult_le_pos (h * L) d HL D0). lra. }
  induction i as [|i IH]; intros Hi.
  - split; [exact B0|]. intros Hi1 j Hj. cbn [Nat.add]. pose proof (Y1 Hi1 (within 0 (pbound 0) Hi (PB 0 Hi) B0) j Hj) as YE. cbn [INR]. rewrite Rmult_1_l.
    pose proof (euler_res n g X t0 t1 K SO K0 SC t0 h j ltac:(pose proof (ptm_in 0 Hi); lra) ltac:(pose proof (ptm_in 1 Hi1) as Q; cbn [INR] in Q; lra) Hj) as ER. rewrite (Rabs_right h) in ER by lra.
    pose proof (LIP t0 (y 0%nat) (X t0) d (LEN 0 Hi) ltac:(rewrite <- E0; apply pXL; exact Hi) Y0 j Hj) as LJ. pose proof (Y0 j Hj) as YJ.
    replace (cmpR (y 1%nat) j - cmpR (X (t0 + h)) j) with ((cmpR (y 1%nat) j - (cmpR (y 0%nat) j + h * cmpR (g t0 (y 0%nat)) j)) + ((cmpR (y 0%nat) j - cmpR (X t0) j) + h * (cmpR (g t0 (y 0%nat)) j - V t0 j) - (cmpR (X (t0 + h)) j - cmpR (X t0) j - h * V t0 j))) by ring.
    eapply Rle_trans; [apply Rabs_triang|]. eapply Rle_trans; [apply Rplus_le_compat_l; apply Rabs_triang|]. rewrite Rabs_Ropp. eapply Rle_trans; [apply Rplus_le_compat_l, Rplus_le_compat_r; apply Rabs_triang|]. rewrite Rabs_mult, (Rabs_right h) by lra. cbn [pbound].
    assert (h * Rabs (cmpR (g t0 (y 0%nat)) j - V t0 j) <= h * (L * d)) by (apply Rmult_le_compat_l; lra). lra.
  - destruct (IH ltac:(lia)) as (P1 & P2). replace (i + 1)%nat with (S i) in P2 by lia. specialize (P2 ltac:(lia)). split.
    + intros j Hj. eapply Rle_trans; [apply P2; exact Hj|]. apply pbound_grows.
    + intros Hi1 j Hj. replace (S i + 1)%nat with (i + 2)%nat in * by lia.
      pose proof (YS i Hi1 (within i _ ltac:(lia) (PB i ltac:(lia)) P1)) as YE. replace (i + 1)%nat with (S i) in YE by lia. specialize (YE (within (S i) _ Hi (PB i ltac:(lia)) P2) j Hj). set (c := tm (S i)) in *.
      assert (EC1 : tm (i + 2)%nat = c + h) by (unfold c; rewrite plus_INR, (S_INR i); cbn [INR]; ring). assert (EC0 : tm i = c - h) by (unfold c; rewrite S_INR; ring).
      rewrite EC1. rewrite EC0 in P1. pose proof (mid_residual n g X A t0 t1 M SO M0 CC c h j ltac:(lra) ltac:(pose proof (ptm_in i ltac:(lia)); lra) ltac:(pose proof (ptm_in (i + 2) ltac:(lia)); lra) Hj) as MR.
      pose proof (LIP c (y (S i)) (X c) (pbound i) (LEN (S i) Hi) (pXL (S i) Hi) P2 j Hj) as LJ. pose proof (P1 j Hj) as PJ.
      replace (cmpR (y (i + 2)%nat) j - cmpR (X (c + h)) j) with ((cmpR (y (i + 2)%nat) j - (cmpR (y i) j + 2 * h * cmpR (g c (y (S i))) j)) + ((cmpR (y i) j - cmpR (X (c - h)) j) + 2 * h * (cmpR (g c (y (S i))) j - V c j) - (cmpR (X (c + h)) j - cmpR (X (c - h)) j - 2 * h * V c j))) by ring.
      eapply Rle_trans; [apply Rabs_triang|]. eapply Rle_trans; [apply Rplus_le_compat_l; apply Rabs_triang|]. rewrite Rabs_Ropp. eapply Rle_trans; [apply Rplus_le_compat_l, Rplus_le_compat_r; apply Rabs_triang|]. rewrite Rabs_mult, (Rabs_right (2 * h)) by lra. cbn [pbound].
      assert (2 * h * Rabs (cmpR (g c (y (S i))) j - V c j) <= 2 * h * (L * pbound i)) by (apply Rmult_le_compat_l; lra). lra.
Qed.
Lemma pbound_closed i : pbound i <= exp (INR i * (2 * h * L)) * ((1 + h * L) * d + K * (h * h) + e + INR i * (2 * M * (h * h * h) + e)).
Proof.
  pose proof hl. pose proof h3. apply (gronwall pbound (2 * h * L) (2 * M * (h * h * h) + e)); [lra|lra|apply pbound_grows|]. intros k _. cbn [pbound]. lra.
Qed.
(** the smoothed value: half the sum of the last state and of the inner state advanced by half a step *)
Lemma psmoothed z i j r : (i + 1 = m)%nat -> (j < n)%nat -> Rabs (cmpR z j - (cmpR (y m) j + (cmpR (y i) j + h * cmpR (g (tm m) (y m)) j)) / 2) <= r ->
  Rabs (cmpR z j - cmpR (X (tm m)) j) <= (1 + h * L / 2) * pbound i + K * (h * h) / 2 + r.
Proof.
  intros Em Hj EZ. assert (HI : (i <= m)%nat) by lia. destruct (ptwo_step i HI) as (Q1 & Q2). specialize (Q2 ltac:(lia)). rewrite Em in Q2.
  set (c := tm m) in *. assert (EC0 : tm i = c - h) by (unfold c; rewrite <- Em, plus_INR; cbn [INR]; ring). rewrite EC0 in Q1.
  pose proof (LIP c (y m) (X c) (pbound i) (LEN m ltac:(lia)) (pXL m ltac:(lia)) Q2 j Hj) as LJ. pose proof (Q1 j Hj) as PJ. pose proof (Q2 j Hj) as QJ.
  pose proof (euler_res n g X t0 t1 K SO K0 SC c (- h) j ltac:(apply (ptm_in m ltac:(lia))) ltac:(pose proof (ptm_in i HI); lra) Hj) as ER. rewrite Rabs_Ropp, (Rabs_right h) in ER by lra. replace (c + - h) with (c - h) in ER by ring.
  replace (cmpR z j - cmpR (X c) j) with ((cmpR z j - (cmpR (y m) j + (cmpR (y i) j + h * cmpR (g c (y m)) j)) / 2) + (/ 2 * ((cmpR (y i) j - cmpR (X (c - h)) j) + (cmpR (y m) j - cmpR (X c) j)) + (/ 2 * (h * (cmpR (g c (y m)) j - V c j)) + / 2 * (cmpR (X (c - h)) j - cmpR (X c) j - - h * V c j)))) by field.
  assert (A1 : Rabs (/ 2 * ((cmpR (y i) j - cmpR (X (c - h)) j) + (cmpR (y m) j - cmpR (X c) j))) <= / 2 * (pbound i + pbound i)).
  { rewrite Rabs_mult, (Rabs_right (/ 2)) by lra. apply Rmult_le_compat_l; [lra|]. eapply Rle_trans; [apply Rabs_triang|]. lra. }
  assert (A2 : Rabs (/ 2 * (h * (cmpR (g c (y m)) j - V c j))) <= / 2 * (h * (L * pbound i))).
  { rewrite Rabs_mult, (Rabs_right (/ 2)) by lra. apply Rmult_le_compat_l; [lra|]. rewrite Rabs_mult, (Rabs_right h) by lra. apply Rmult_le_compat_l; lra. }
  assert (A3 : Rabs (/ 2 * (cmpR (X (c - h)) j - cmpR (X c) j - - h * V c j)) <= / 2 * (K * (h * h))) by (rewrite Rabs_mult, (Rabs_right (/ 2)) by lra; apply Rmult_le_compat_l; lra).
  eapply Rle_trans; [apply Rabs_triang|]. eapply Rle_trans; [apply Rplus_le_compat; [exact EZ|eapply Rle_trans; [apply Rabs_triang|apply Rplus_le_compat; [exact A1|eapply Rle_trans; [apply Rabs_triang|apply Rplus_le_compat; [exact A2|exact A3]]]]]|]. lra.
Qed.
End Pert.
