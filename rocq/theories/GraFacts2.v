(** GraFacts2.v - second order convergence of the Gragg solver: the solver. *)
From Coq Require Import List Arith Bool ZArith QArith Qcanon Lia Reals Lra.
From Verif Require Import Base BaseFacts VecModel VOps NewtModel RkModel RkSpec RkFacts StepModel StepSpec ExtModel ExtSpec ExtFacts5 ImpModel ConvSpec ConvFacts ConvFacts2 ConvFacts5 HighFacts5 ImcSpec ImcFacts ImcFacts3 XrkFacts7 GraFacts.
Import ListNotations.
Local Open Scope R_scope.
Lemma q2r_div2 h : q2r (h / qn 2)%Qc = q2r h / 2.
Proof.
  assert (E : (h = qn 2 * (h / qn 2))%Qc) by (field; discriminate). assert (F : q2r h = 2 * q2r (h / qn 2)%Qc) by (rewrite E at 1; rewrite q2r_mult, q2r_qn; cbn [INR]; ring). lra.
Qed.
Lemma q2r_div4 h : q2r (h / qn 4)%Qc = q2r h / 4.
Proof.
  assert (E : (h = qn 4 * (h / qn 4))%Qc) by (field; discriminate). assert (F : q2r h = 4 * q2r (h / qn 4)%Qc) by (rewrite E at 1; rewrite q2r_mult, q2r_qn; cbn [INR]; ring). lra.
Qed.
Lemma exp_ge1 x : 0 <= x -> 1 <= exp x. Proof. intros H. pose proof (exp_ineq1_le x). lra. Qed.
Lemma exp_mono x y : x <= y -> exp x <= exp y. Proof. intros [H| ->]; [left; apply exp_increasing; exact H|right; reflexivity]. Qed.
Section Run.
Context {W : Type} (f : W -> Qc -> list Qc -> Outcome (list Qc)) (n : nat) (g : R -> list R -> list R) (X : R -> list R) (A : R -> nat -> R) (L K M T d : R) (s : gst QcNum W) (h : Qc) (count : nat).
Notation t0 := (q2r (g_t s)).
Hypothesis CR : computes_rhs n (f (g_w s)) g.
Hypothesis L0 : 0 <= L.
Hypothesis LIP : lipschitz_x n L g.
Hypothesis K0 : 0 <= K.
Hypothesis M0 : 0 <= M.
Hypothesis SO : solves n g X t0 (t0 + T).
Hypothesis SC : slope_changes n g X t0 (t0 + T) K.
Hypothesis CC : curvature_changes n g X A t0 (t0 + T) M.
Hypothesis H0 : 0 < q2r h.
Hypothesis FIT : INR count * q2r h <= T.
Hypothesis LU : length (g_u s) = n.
Hypothesis D0 : 0 <= d.
Hypothesis Y0 : near n (toR (g_u s)) (X t0) d.
Theorem gragg_error : exists s', g_steps (N:=QcNum) no_events f (qn 2) count (g_size (N:=QcNum) h s) = Some s' /\ q2r (g_t s') = t0 + INR count * q2r h /\
  (forall half, exists z, g_state (N:=QcNum) false half s' = Ret z /\ near n (toR z) (X (q2r (g_t s'))) (exp (2 * L * T) * ((1 + q2r h * L) * d + (K / 4 + T * M / 2) * (q2r h * q2r h)))) /\
  exists z, g_state (N:=QcNum) true (1 / qn 2)%Qc s' = Ret z /\ near n (toR z) (X (q2r (g_t s'))) ((1 + q2r h * L) * (exp (2 * L * T) * ((1 + q2r h * L) * d + (K / 4 + T * M / 2) * (q2r h * q2r h))) + K / 8 * (q2r h * q2r h)).
Proof.
  destruct (gragg_new_size W f n h s (good_computes n _ g CR) LU count) as (s' & y & slope & E & EY & (MP1 & MP2 & MP3) & ET & EU & EW & ST & SM).
  exists s'. split; [exact E|]. rewrite ET, q2r_plus, q2r_mult, q2r_qn. split; [reflexivity|].
  set (H := q2r h) in *. set (hh := H / 2). assert (TP : 0 <= T) by (pose proof (pos_INR count); pose proof (Rmult_le_pos (INR count) H ltac:(assumption) ltac:(lra)); lra).
  assert (HL : 0 <= H * L) by (apply Rmult_le_pos; lra). assert (HH : 0 < hh) by (unfold hh; lra).
  assert (TM : forall i, q2r (g_t s + qn i * (h / qn 2))%Qc = t0 + INR i * hh) by (intros i; rewrite q2r_plus, q2r_mult, q2r_qn, q2r_div2; reflexivity).
  assert (SL : forall i, (i <= 2 * count)%nat -> toR (slope i) = g (t0 + INR i * hh) (toR (y i))).
  { intros i Hi. destruct (MP1 i Hi) as (L1 & F1). destruct (CR (g_t s + qn i * (h / qn 2))%Qc (y i) L1) as (q & F2 & _ & Q). rewrite F2 in F1. injection F1 as ->. rewrite TM in Q. exact Q. }
  assert (LEN : forall i, (i <= 2 * count)%nat -> length (toR (y i)) = n) by (intros i Hi; rewrite toR_length; apply MP1; exact Hi).
  assert (FT : t0 + INR (2 * count) * hh <= t0 + T) by (rewrite mult_INR; unfold hh; cbn [INR]; lra).
  assert (YY : near n (toR (y 0%nat)) (X t0) d) by (rewrite EY; exact Y0).
  assert (Y1 : forall j, (j < n)%nat -> cmpR (toR (y 1%nat)) j = cmpR (toR (y 0%nat)) j + hh * cmpR (g t0 (toR (y 0%nat))) j).
  { intros j Hj. rewrite !toR_cmp, (MP2 j Hj), q2r_plus, q2r_mult, q2r_div2. fold H. fold hh. f_equal. f_equal. rewrite <- toR_cmp, (SL 0%nat) by lia. cbn [INR]. rewrite Rmult_0_l, Rplus_0_r. reflexivity. }
  assert (YS : forall i, (i + 1 <= 2 * count)%nat -> forall j, (j < n)%nat -> cmpR (toR (y (i + 2)%nat)) j = cmpR (toR (y i)) j + 2 * hh * cmpR (g (t0 + INR (i + 1) * hh) (toR (y (i + 1)%nat))) j).
  { intros i Hi j Hj. rewrite !toR_cmp, (MP3 i Hi j Hj), q2r_plus, q2r_mult. rewrite <- toR_cmp with (x := slope (i + 1)%nat). rewrite SL by exact Hi. fold H. unfold hh. f_equal. f_equal. field. }
  pose proof (two_step n g X A t0 (t0 + T) K M SO K0 M0 SC CC L d hh (fun i => toR (y i)) (2 * count) L0 D0 HH LIP LEN FT YY Y1 YS) as TS.
  pose proof (bound_closed K M K0 M0 L d hh L0 D0 HH) as BC. set (b := bound K M L d hh) in *.
  set (B := exp (2 * L * T) * ((1 + H * L) * d + (K / 4 + T * M / 2) * (H * H))) in *.
  assert (EB : forall i, (i <= 2 * count)%nat -> b i <= B).
  { intros i Hi. eapply Rle_trans; [apply BC|]. assert (NI : INR i * hh <= T) by (eapply Rle_trans; [apply Rmult_le_compat_r; [lra|apply le_INR; exact Hi]|]; lra). pose proof (pos_INR i) as PI. unfold B.
    assert (P1 : 0 <= (1 + hh * L) * d) by (apply Rmult_le_pos; [unfold hh; lra|exact D0]). assert (P2 : 0 <= K * (hh * hh)) by (apply Rmult_le_pos; [exact K0|nra]).
    assert (HH3 : 0 <= hh * hh * hh) by (pose proof (Rmult_lt_0_compat _ _ (Rmult_lt_0_compat _ _ HH HH) HH); lra).
    assert (P3 : 0 <= INR i * (2 * M * (hh * hh * hh))) by (apply Rmult_le_pos; [exact PI|apply Rmult_le_pos; [lra|exact HH3]]).
    apply Rmult_le_compat; [left; apply exp_pos|lra| |].
    - apply exp_mono. replace (INR i * (2 * hh * L)) with (2 * L * (INR i * hh)) by ring. apply Rmult_le_compat_l; lra.
    - assert (Q1 : (1 + hh * L) * d <= (1 + H * L) * d) by (apply Rmult_le_compat_r; [exact D0|unfold hh; lra]). assert (Q2 : K * (hh * hh) = K / 4 * (H * H)) by (unfold hh; field).
      assert (Q3 : INR i * (2 * M * (hh * hh * hh)) <= T * (M / 2 * (H * H))).
      { replace (INR i * (2 * M * (hh * hh * hh))) with (INR i * hh * (M / 2 * (H * H))) by (unfold hh; field). apply Rmult_le_compat_r; [|exact NI]. apply Rmult_le_pos; [lra|nra]. }
      replace (T * (M / 2 * (H * H))) with (T * M / 2 * (H * H)) in Q3 by field. lra. }
  assert (TE : t0 + INR (2 * count) * hh = t0 + INR count * H) by (rewrite mult_INR; unfold hh; cbn [INR]; field).
  assert (PB : 0 <= B) by (eapply Rle_trans; [apply (bound_grows K M K0 M0 L d hh L0 D0 HH 0)|apply (EB 0%nat); lia]).
  assert (KH : 0 <= K / 8 * (H * H)) by (apply Rmult_le_pos; [lra|nra]). assert (HLB : 0 <= H * L * B) by (apply Rmult_le_pos; assumption).
  assert (LAST : near n (toR (y (2 * count)%nat)) (X (t0 + INR count * H)) B).
  { rewrite <- TE. intros j Hj. eapply Rle_trans; [apply (TS (2 * count)%nat); [lia|exact Hj]|]. apply EB. lia. }
  split.
  - intros half. exists (y (2 * count)%nat). split; [apply ST|exact LAST].
  - destruct count as [|c].
    + cbn [g_steps] in E. injection E as <-. exists (g_u s). split; [unfold g_state, g_size; cbn [g_run]; rewrite andb_false_r; reflexivity|].
      change (y (2 * 0)%nat) with (y 0%nat) in LAST. rewrite EY in LAST. intros j Hj. eapply Rle_trans; [apply LAST; exact Hj|]. lra.
    + destruct (SM ltac:(lia)) as (z & EZ & LZ & VZ). exists z. split; [exact EZ|]. rewrite <- TE. intros j Hj.
      assert (ZZ : cmpR (toR z) j = (cmpR (toR (y (2 * c + 1)%nat)) j + 2 * cmpR (toR (y (2 * S c)%nat)) j + cmpR (toR (y (2 * c + 1 + 2)%nat)) j) / 4).
      { rewrite !toR_cmp, (VZ j Hj), q2r_div4, !q2r_plus, q2r_mult, q2r_qn. replace (2 * S c - 1)%nat with (2 * c + 1)%nat by lia. replace (2 * S c + 1)%nat with (2 * c + 1 + 2)%nat by lia. cbn [INR]. f_equal. }
      eapply Rle_trans; [exact (smoothed n g X A t0 (t0 + T) K M SO K0 M0 SC CC L d hh (fun i => toR (y i)) (2 * S c) L0 D0 HH LIP LEN FT YY Y1 YS (toR z) (2 * c + 1) j ltac:(lia) Hj ZZ)|].
      fold b. assert (b (2 * c + 1)%nat <= B) by (apply EB; lia). assert (PBB : 0 <= b (2 * c + 1)%nat) by (apply (bound_grows K M K0 M0 L d hh L0 D0 HH)).
      assert ((1 + hh * L / 2) * b (2 * c + 1)%nat <= (1 + H * L) * B) by (apply Rmult_le_compat; [unfold hh; lra|exact PBB|unfold hh; lra|assumption]).
      assert (K * (hh * hh) / 2 = K / 8 * (H * H)) by (unfold hh; field). lra.
Qed.
End Run.
