(** GraFacts.v - second order convergence of the Gragg solver. *)
From Coq Require Import List Arith Bool ZArith QArith Qcanon Lia Reals Lra.
From Verif Require Import Base BaseFacts VecModel VOps NewtModel RkModel RkSpec RkFacts StepModel StepSpec ExtModel ExtSpec ExtFacts2 ExtFacts3 ImpModel ConvSpec ConvFacts ConvFacts2 ConvFacts5 HighFacts5 ImcSpec ImcFacts ImcFacts3 XrkFacts7.
Import ListNotations.
Local Open Scope R_scope.

(** the mean value theorem in either direction *)
Lemma mvt2 (F F' : R -> R) a b : a <> b -> (forall u, Rmin a b <= u <= Rmax a b -> derivable_pt_lim F u (F' u)) ->
  exists c, F b - F a = F' c * (b - a) /\ Rmin a b <= c <= Rmax a b.
Proof.
  intros NE D. destruct (Rlt_le_dec a b) as [H|H].
  - rewrite Rmin_left, Rmax_right in * by lra. destruct (MVT_cor2 F F' a b H D) as (c & E & C). exists c. split; [exact E|lra].
  - rewrite Rmin_right, Rmax_left in * by lra. destruct (MVT_cor2 F F' b a ltac:(lra) D) as (c & E & C). exists c. split; [|lra]. lra.
Qed.
Section Sol.
Context (n : nat) (g : R -> list R -> list R) (X : R -> list R) (A : R -> nat -> R) (t0 t1 K M : R).
Hypothesis SO : solves n g X t0 t1.
Hypothesis K0 : 0 <= K.
Hypothesis M0 : 0 <= M.
Hypothesis SC : slope_changes n g X t0 t1 K.
Hypothesis CC : curvature_changes n g X A t0 t1 M.
Notation V u j := (cmpR (g u (X u)) j).
Lemma expand c k j : t0 <= c <= t1 -> t0 <= c + k <= t1 -> (j < n)%nat ->
  Rabs (cmpR (X (c + k)) j - cmpR (X c) j - k * V c j - k * k / 2 * A c j) <= M * (Rabs k * Rabs k * Rabs k).
Proof.
  intros Hc Hk Hj. destruct (Req_dec k 0) as [->|NZ].
  - rewrite Rplus_0_r. replace (_ - _ - _ - _) with 0 by field. rewrite Rabs_R0. lra.
  - destruct CC as [DA CA]. set (psi := fun u => cmpR (X u) j - cmpR (X c) j - (u - c) * V c j - (u - c) * (u - c) / 2 * A c j). set (dpsi := fun u => V u j - V c j - (u - c) * A c j).
    assert (IN : forall u, Rmin c (c + k) <= u <= Rmax c (c + k) -> t0 <= u <= t1 /\ Rabs (u - c) <= Rabs k).
    { intros u. unfold Rmin, Rmax. destruct (Rle_dec c (c + k)); intros Hu; (split; [lra|]).
      - rewrite !Rabs_right by lra. lra.
      - rewrite (Rabs_left k) by lra. rewrite Rabs_left1 by lra. lra. }
    assert (D : forall u, Rmin c (c + k) <= u <= Rmax c (c + k) -> derivable_pt_lim psi u (dpsi u)).
    { intros u Hu. unfold psi, dpsi. destruct (IN u Hu) as (I1 & _).
      replace (V u j - V c j - (u - c) * A c j) with ((V u j - 0) - ((1 - 0) * V c j + (u - c) * 0) - (((1 - 0) * (u - c) + (u - c) * (1 - 0)) * (/ 2 * A c j) + ((u - c) * (u - c)) * 0)) by field.
      assert (DL : derivable_pt_lim (fun u => u - c) u (1 - 0)) by (apply (derivable_pt_lim_minus (fun u => u) (fun _ => c)); [apply derivable_pt_lim_id|apply derivable_pt_lim_const]).
      apply (derivable_pt_lim_minus (fun u => cmpR (X u) j - cmpR (X c) j - (u - c) * V c j) (fun u => (u - c) * (u - c) / 2 * A c j)).
      - apply (derivable_pt_lim_minus (fun u => cmpR (X u) j - cmpR (X c) j) (fun u => (u - c) * V c j)).
        + apply (derivable_pt_lim_minus (fun u => cmpR (X u) j) (fun _ => cmpR (X c) j)); [apply (proj2 (SO u I1)); exact Hj|apply derivable_pt_lim_const].
        + apply (derivable_pt_lim_mult (fun u => u - c) (fun _ => V c j)); [exact DL|apply derivable_pt_lim_const].
      - apply (derivable_pt_lim_ext (fun u => (u - c) * (u - c) * (/ 2 * A c j))); [intros w; field|].
        apply (derivable_pt_lim_mult (fun u => (u - c) * (u - c)) (fun _ => / 2 * A c j)); [|apply derivable_pt_lim_const]. apply (derivable_pt_lim_mult (fun u => u - c) (fun u => u - c)); exact DL. }
    destruct (mvt2 psi dpsi c (c + k) ltac:(lra) D) as (x & E & HX). destruct (IN x HX) as (X1 & X2).
    assert (P0 : psi c = 0) by (unfold psi; field). rewrite P0 in E. replace (c + k - c) with k in E by ring.
    replace (cmpR (X (c + k)) j - cmpR (X c) j - k * V c j - k * k / 2 * A c j) with (psi (c + k) - 0) by (unfold psi; field). rewrite E, Rabs_mult.
    assert (B : Rabs (dpsi x) <= M * (Rabs k * Rabs k)).
    { destruct (Req_dec c x) as [<-|NX].
      - unfold dpsi. replace (_ - _ - _) with 0 by ring. rewrite Rabs_R0. pose proof (Rabs_pos k). apply Rmult_le_pos; [exact M0|]. apply Rmult_le_pos; assumption.
      - destruct (mvt2 (fun u => V u j) (fun u => A u j) c x NX) as (b & E2 & HB).
        { intros u Hu. apply DA; [|exact Hj]. apply IN. revert Hu HX. unfold Rmin, Rmax. repeat destruct (Rle_dec _ _); lra. }
        assert (B1 : Rabs (b - c) <= Rabs k /\ t0 <= b <= t1) by (apply and_comm; apply IN; revert HB HX; unfold Rmin, Rmax; repeat destruct (Rle_dec _ _); lra).
        unfold dpsi. replace (V x j - V c j - (x - c) * A c j) with ((A b j - A c j) * (x - c)) by (rewrite E2; ring). rewrite Rabs_mult. replace (M * (Rabs k * Rabs k)) with (M * Rabs k * Rabs k) by ring.
        apply Rmult_le_compat; [apply Rabs_pos|apply Rabs_pos| |exact X2]. eapply Rle_trans; [apply CA; [apply B1|exact Hc|exact Hj]|]. apply Rmult_le_compat_l; [exact M0|apply B1]. }
    replace (M * (Rabs k * Rabs k * Rabs k)) with (M * (Rabs k * Rabs k) * Rabs k) by ring. apply Rmult_le_compat_r; [apply Rabs_pos|exact B].
Qed.
(** the midpoint rule *)
Lemma mid_residual c h j : 0 <= h -> t0 <= c - h -> c + h <= t1 -> (j < n)%nat -> Rabs (cmpR (X (c + h)) j - cmpR (X (c - h)) j - 2 * h * V c j) <= 2 * M * (h * h * h).
Proof.
  intros Hh H1 H2 Hj. pose proof (expand c h j ltac:(lra) ltac:(lra) Hj) as E1. pose proof (expand c (- h) j ltac:(lra) ltac:(lra) Hj) as E2.
  rewrite Rabs_Ropp in E2. rewrite (Rabs_right h) in * by lra. replace (c + - h) with (c - h) in E2 by ring.
  replace (cmpR (X (c + h)) j - cmpR (X (c - h)) j - 2 * h * V c j) with ((cmpR (X (c + h)) j - cmpR (X c) j - h * V c j - h * h / 2 * A c j) - (cmpR (X (c - h)) j - cmpR (X c) j - - h * V c j - - h * - h / 2 * A c j)) by field.
  eapply Rle_trans; [apply Rabs_triang|]. rewrite Rabs_Ropp. lra.
Qed.
Lemma euler_res c k j : t0 <= c <= t1 -> t0 <= c + k <= t1 -> (j < n)%nat -> Rabs (cmpR (X (c + k)) j - cmpR (X c) j - k * V c j) <= K * (Rabs k * Rabs k).
Proof.
  intros Hc Hk Hj. destruct (Req_dec k 0) as [->|NZ]; [rewrite Rplus_0_r; replace (_ - _ - _) with 0 by ring; rewrite Rabs_R0; lra|].
  assert (IN : forall u, Rmin c (c + k) <= u <= Rmax c (c + k) -> t0 <= u <= t1 /\ Rabs (u - c) <= Rabs k).
  { intros u. unfold Rmin, Rmax. destruct (Rle_dec c (c + k)); intros Hu; (split; [lra|]).
    - rewrite !Rabs_right by lra. lra.
    - rewrite (Rabs_left k) by lra. rewrite Rabs_left1 by lra. lra. }
  destruct (mvt2 (fun u => cmpR (X u) j) (fun u => V u j) c (c + k) ltac:(lra)) as (x & E & HX); [intros u Hu; apply (proj2 (SO u (proj1 (IN u Hu)))); exact Hj|].
  replace (c + k - c) with k in E by ring. rewrite E. replace (V x j * k - k * V c j) with ((V x j - V c j) * k) by ring. rewrite Rabs_mult. replace (K * (Rabs k * Rabs k)) with (K * Rabs k * Rabs k) by ring.
  apply Rmult_le_compat_r; [apply Rabs_pos|]. destruct (IN x HX) as (I1 & I2). eapply Rle_trans; [apply SC; [exact I1|exact Hc|exact Hj]|]. apply Rmult_le_compat_l; assumption.
Qed.
(** * The two-step recursion; h is the substep, the slopes are exact for the computed states *)
Context (L d h : R) (y : nat -> list R) (m : nat).
Hypothesis L0 : 0 <= L.
Hypothesis D0 : 0 <= d.
Hypothesis H0 : 0 < h.
Hypothesis LIP : lipschitz_x n L g.
Hypothesis LEN : forall i, (i <= m)%nat -> length (y i) = n.
Hypothesis FIT : t0 + INR m * h <= t1.
Hypothesis Y0 : near n (y 0%nat) (X t0) d.
Notation tm i := (t0 + INR i * h).
Hypothesis Y1 : forall j, (j < n)%nat -> cmpR (y 1%nat) j = cmpR (y 0%nat) j + h * cmpR (g t0 (y 0%nat)) j.
Hypothesis YS : forall i, (i + 1 <= m)%nat -> forall j, (j < n)%nat -> cmpR (y (i + 2)%nat) j = cmpR (y i) j + 2 * h * cmpR (g (tm (i + 1)%nat) (y (i + 1)%nat)) j.
Fixpoint bound (i : nat) : R := match i with O => (1 + h * L) * d + K * (h * h) | S k => (1 + 2 * h * L) * bound k + 2 * M * (h * h * h) end.
Lemma bound_grows i : 0 <= bound i /\ bound i <= bound (S i).
Proof.
  assert (P : forall i, 0 <= bound i).
  { induction i0 as [|k I]; cbn [bound]; [apply Rplus_le_le_0_compat; apply Rmult_le_pos; try lra; [|nra]; pose proof (Rmult_le_pos h L ltac:(lra) L0); lra|].
    pose proof (Rmult_le_pos h L ltac:(lra) L0). apply Rplus_le_le_0_compat; [apply Rmult_le_pos; [lra|exact I]|]. apply Rmult_le_pos; [lra|]. repeat apply Rmult_le_pos; lra. }
  split; [apply P|]. cbn [bound]. pose proof (P i). pose proof (Rmult_le_pos h L ltac:(lra) L0). assert (0 <= 2 * M * (h * h * h)) by (apply Rmult_le_pos; [lra|repeat apply Rmult_le_pos; lra]).
  assert (0 <= 2 * (h * L) * bound i) by (apply Rmult_le_pos; lra). lra.
Qed.
Lemma tm_in i : (i <= m)%nat -> t0 <= tm i <= t1.
Proof.
  intros Hi. pose proof (pos_INR i). split; [pose proof (Rmult_le_pos (INR i) h ltac:(assumption) ltac:(lra)); lra|]. eapply Rle_trans; [|exact FIT]. apply Rplus_le_compat_l. apply Rmult_le_compat_r; [lra|]. apply le_INR. exact Hi.
Qed.
Lemma XL i : (i <= m)%nat -> length (X (tm i)) = n. Proof. intros Hi. apply (SO (tm i) (tm_in i Hi)). Qed.
Lemma two_step : forall i, (i <= m)%nat -> near n (y i) (X (tm i)) (bound i) /\ ((i + 1 <= m)%nat -> near n (y (i + 1)%nat) (X (tm (i + 1)%nat)) (bound i)).
Proof.
  assert (E0 : tm 0%nat = t0) by (cbn [INR]; ring).
  assert (B0 : near n (y 0%nat) (X (tm 0%nat)) (bound 0)).
  { rewrite E0. intros j Hj. eapply Rle_trans; [apply Y0; exact Hj|]. cbn [bound]. pose proof (Rmult_le_pos (h * L) d (Rmult_le_pos h L ltac:(lra) L0) D0). assert (0 <= K * (h * h)) by (apply Rmult_le_pos; [lra|nra]). lra. }
  induction i as [|i IH]; intros Hi.
  - split; [exact B0|]. intros Hi1 j Hj. cbn [Nat.add]. rewrite Y1 by exact Hj. cbn [INR]. rewrite Rmult_1_l.
    pose proof (euler_res t0 h j ltac:(pose proof (tm_in 0 Hi); lra) ltac:(pose proof (tm_in 1 Hi1) as Q; cbn [INR] in Q; lra) Hj) as ER. rewrite (Rabs_right h) in ER by lra.
    pose proof (LIP t0 (y 0%nat) (X t0) d (LEN 0 Hi) ltac:(rewrite <- E0; apply XL; exact Hi) Y0 j Hj) as LJ. pose proof (Y0 j Hj) as YJ.
    replace (cmpR (y 0%nat) j + h * cmpR (g t0 (y 0%nat)) j - cmpR (X (t0 + h)) j) with ((cmpR (y 0%nat) j - cmpR (X t0) j) + h * (cmpR (g t0 (y 0%nat)) j - V t0 j) - (cmpR (X (t0 + h)) j - cmpR (X t0) j - h * V t0 j)) by ring.
    eapply Rle_trans; [apply Rabs_triang|]. rewrite Rabs_Ropp. eapply Rle_trans; [apply Rplus_le_compat_r; apply Rabs_triang|]. rewrite Rabs_mult, (Rabs_right h) by lra. cbn [bound].
    assert (h * Rabs (cmpR (g t0 (y 0%nat)) j - V t0 j) <= h * (L * d)) by (apply Rmult_le_compat_l; lra). lra.
  - destruct (IH ltac:(lia)) as (P1 & P2). replace (i + 1)%nat with (S i) in P2 by lia. specialize (P2 ltac:(lia)). split.
    + intros j Hj. eapply Rle_trans; [apply P2; exact Hj|]. apply bound_grows.
    + intros Hi1 j Hj. replace (S i + 1)%nat with (i + 2)%nat by lia. rewrite YS by (exact Hj || lia). replace (i + 1)%nat with (S i) by lia. set (c := tm (S i)) in *.
      assert (EC1 : tm (i + 2)%nat = c + h) by (unfold c; rewrite plus_INR, (S_INR i); cbn [INR]; ring). assert (EC0 : tm i = c - h) by (unfold c; rewrite S_INR; ring).
      rewrite EC1. rewrite EC0 in P1. pose proof (mid_residual c h j ltac:(lra) ltac:(pose proof (tm_in i ltac:(lia)); lra) ltac:(pose proof (tm_in (i + 2) ltac:(lia)); lra) Hj) as MR.
      pose proof (LIP c (y (S i)) (X c) (bound i) (LEN (S i) Hi) (XL (S i) Hi) P2 j Hj) as LJ. pose proof (P1 j Hj) as PJ.
      replace (cmpR (y i) j + 2 * h * cmpR (g c (y (S i))) j - cmpR (X (c + h)) j) with ((cmpR (y i) j - cmpR (X (c - h)) j) + 2 * h * (cmpR (g c (y (S i))) j - V c j) - (cmpR (X (c + h)) j - cmpR (X (c - h)) j - 2 * h * V c j)) by ring.
      eapply Rle_trans; [apply Rabs_triang|]. rewrite Rabs_Ropp. eapply Rle_trans; [apply Rplus_le_compat_r; apply Rabs_triang|]. rewrite Rabs_mult, (Rabs_right (2 * h)) by lra. cbn [bound].
      assert (2 * h * Rabs (cmpR (g c (y (S i))) j - V c j) <= 2 * h * (L * bound i)) by (apply Rmult_le_compat_l; lra). lra.
Qed.
Lemma bound_closed i : bound i <= exp (INR i * (2 * h * L)) * ((1 + h * L) * d + K * (h * h) + INR i * (2 * M * (h * h * h))).
Proof.
  apply (gronwall bound (2 * h * L) (2 * M * (h * h * h))); [pose proof (Rmult_le_pos h L ltac:(lra) L0); lra|apply Rmult_le_pos; [lra|repeat apply Rmult_le_pos; lra]|apply bound_grows|]. intros k _. cbn [bound]. lra.
Qed.
(** the smoothed value at an inner point *)
Lemma smoothed z i j : (i + 1 = m)%nat -> (j < n)%nat -> cmpR z j = (cmpR (y i) j + 2 * cmpR (y m) j + cmpR (y (i + 2)%nat) j) / 4 ->
  Rabs (cmpR z j - cmpR (X (tm m)) j) <= (1 + h * L / 2) * bound i + K * (h * h) / 2.
Proof.
  intros Em Hj EZ. assert (HI : (i <= m)%nat) by lia. destruct (two_step i HI) as (P1 & P2). specialize (P2 ltac:(lia)). rewrite Em in P2. rewrite (YS i ltac:(lia) j Hj) in EZ. rewrite Em in EZ.
  set (c := tm m) in *. assert (EC0 : tm i = c - h) by (unfold c; rewrite <- Em, plus_INR; cbn [INR]; ring). rewrite EC0 in P1.
  pose proof (LIP c (y m) (X c) (bound i) (LEN m ltac:(lia)) (XL m ltac:(lia)) P2 j Hj) as LJ. pose proof (P1 j Hj) as PJ. pose proof (P2 j Hj) as QJ.
  pose proof (euler_res c (- h) j ltac:(apply (tm_in m ltac:(lia))) ltac:(pose proof (tm_in i HI); lra) Hj) as ER. rewrite Rabs_Ropp, (Rabs_right h) in ER by lra. replace (c + - h) with (c - h) in ER by ring.
  replace (cmpR z j - cmpR (X c) j) with (/ 2 * ((cmpR (y i) j - cmpR (X (c - h)) j) + (cmpR (y m) j - cmpR (X c) j)) + (/ 2 * (h * (cmpR (g c (y m)) j - V c j)) + / 2 * (cmpR (X (c - h)) j - cmpR (X c) j - - h * V c j))) by (rewrite EZ; field).
  assert (A1 : Rabs (/ 2 * ((cmpR (y i) j - cmpR (X (c - h)) j) + (cmpR (y m) j - cmpR (X c) j))) <= / 2 * (bound i + bound i)).
  { rewrite Rabs_mult, (Rabs_right (/ 2)) by lra. apply Rmult_le_compat_l; [lra|]. eapply Rle_trans; [apply Rabs_triang|]. lra. }
  assert (A2 : Rabs (/ 2 * (h * (cmpR (g c (y m)) j - V c j))) <= / 2 * (h * (L * bound i))).
  { rewrite Rabs_mult, (Rabs_right (/ 2)) by lra. apply Rmult_le_compat_l; [lra|]. rewrite Rabs_mult, (Rabs_right h) by lra. apply Rmult_le_compat_l; lra. }
  assert (A3 : Rabs (/ 2 * (cmpR (X (c - h)) j - cmpR (X c) j - - h * V c j)) <= / 2 * (K * (h * h))) by (rewrite Rabs_mult, (Rabs_right (/ 2)) by lra; apply Rmult_le_compat_l; lra).
  eapply Rle_trans; [apply Rabs_triang|]. eapply Rle_trans; [apply Rplus_le_compat; [exact A1|eapply Rle_trans; [apply Rabs_triang|apply Rplus_le_compat; [exact A2|exact A3]]]|]. lra.
Qed.
End Sol.
