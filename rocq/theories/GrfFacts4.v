(** GrfFacts4.v - second order convergence of the Gragg solver in rounded arithmetic. *)
From Coq Require Import List Arith Bool ZArith Lia Reals Lra.
From Verif Require Import Base BaseFacts VecModel VOps NewtModel NewtFacts ImpFacts RkModel RkSpec StepSpec ExtModel ConvSpec ConvFacts FpSpec ImcSpec IfpSpec IfpFacts3 IfpFacts5 GraFacts2 GrfSpec GrfFacts GrfFacts2 GrfFacts3.
Import ListNotations.
Local Open Scope R_scope.
Notation bnd := FpSpec.bound.

Section Final.
Context (rnd : R -> R) (u eta : R) {W : Type} (f : W -> R -> list R -> Outcome (list R)) (n : nat) (g : R -> list R -> list R) (S B G Lt phi : R).
Hypothesis RD : rounds rnd u eta.
Hypothesis U0 : 0 <= u.
Hypothesis E0 : 0 <= eta.
Notation w := (u + eta).
Hypothesis W1 : w <= 1.
Notation st := (gst (FNum rnd) W).
Variable s : st.
Hypothesis CR : computes_near n S B phi (f (g_w s)) g.
Hypothesis SW : slopes_within n S B G Lt g.
Hypothesis B0 : 0 <= B.
Hypothesis G0 : 0 <= G.
Hypothesis Lt0 : 0 <= Lt.
Hypothesis phi0 : 0 <= phi.
Context (X : R -> list R) (C : R -> nat -> R) (L K M T d h : R) (count : nat).
Notation t0 := (g_t s : R).
Notation A := (1 + Rabs t0 + T).
Notation e := (gragg_noise B G Lt A T h w phi).
Hypothesis L0 : 0 <= L.
Hypothesis LIP : lipschitz_x n L g.
Hypothesis K0 : 0 <= K.
Hypothesis M0 : 0 <= M.
Hypothesis SO : solves n g X t0 (t0 + T).
Hypothesis SC : slope_changes n g X t0 (t0 + T) K.
Hypothesis CC : curvature_changes n g X C t0 (t0 + T) M.
Hypothesis H0 : 0 < h.
Hypothesis HTm : 2 * A <= S.
Hypothesis HC : INR count * h <= T.
Hypothesis HW : 3 * INR count * w <= 1.
Hypothesis LU : length (g_u s) = n.
Hypothesis D0 : 0 <= d.
Hypothesis Y0 : near n (g_u s) (X t0) d.
Notation E := (exp (2 * L * T) * ((1 + h * L) * d + (K / 4 + T * M / 2) * (h * h) + (1 + 2 * T / h) * e)).
Hypothesis XB : forall t, t0 <= t <= t0 + T -> bnd n (X t) (B - E).
Theorem gragg_rounded : exists s', g_steps (N:=FNum rnd) no_events f 2 count (g_size (N:=FNum rnd) h s) = Some s' /\ Rabs (g_t s' - (t0 + INR count * h)) <= 2 * INR count * w * A /\
  (forall half, exists z : list R, g_state (N:=FNum rnd) false half s' = Ret z /\ near n z (X (t0 + INR count * h)) E) /\
  exists z : list R, g_state (N:=FNum rnd) true (/ 2) s' = Ret z /\ near n z (X (t0 + INR count * h)) ((1 + h * L) * E + K / 8 * (h * h) + e).
Proof.
  destruct (inv_run rnd u eta f (g_w s) n g S B G Lt phi RD U0 E0 W1 CR SW B0 G0 Lt0 phi0 h t0 T count H0 HTm HC HW s LU eq_refl eq_refl count (le_n _)) as (s' & y & ES & IV & Y00).
  destruct (basics u eta B G Lt phi U0 E0 B0 G0 Lt0 phi0 h t0 T count H0 HC HW) as (T00 & A1 & TA0 & TA1 & QW & EB & PL).
  pose proof IV as (EH & EW & YU & TT & LY & ER & RUN & R1 & RS).
  exists s'. split; [exact ES|]. split; [exact TT|].
  set (hh := h / 2) in *. assert (HH : 0 < hh) by (unfold hh; lra). assert (HL : 0 <= h * L) by (apply Rmult_le_pos; lra).
  assert (HPL : 0 <= h * (phi + Lt * (3 * INR count * w * A))) by (apply Rmult_le_pos; lra). assert (EP : 0 <= e) by lra.
  assert (FT : t0 + INR (2 * count) * hh <= t0 + T) by (rewrite mult_INR; unfold hh; cbn [INR]; lra).
  assert (TE : t0 + INR (2 * count) * hh = t0 + INR count * h) by (rewrite mult_INR; unfold hh; cbn [INR]; field).
  rewrite <- Y00 in Y0.
  pose proof (pbound_closed K M K0 M0 L d hh e L0 D0 HH EP) as BC. set (b := pbound K M L d hh e) in *.
  assert (EPB : forall i, (i <= 2 * count)%nat -> b i <= E).
  { intros i Hi. eapply Rle_trans; [apply BC|]. assert (NI : INR i * hh <= T). { eapply Rle_trans; [apply Rmult_le_compat_r; [lra|apply le_INR; exact Hi]|]. rewrite mult_INR. unfold hh. cbn [INR]. lra. } pose proof (pos_INR i) as PI.
    assert (P1 : 0 <= (1 + hh * L) * d) by (apply Rmult_le_pos; [unfold hh; lra|exact D0]). assert (P2 : 0 <= K * (hh * hh)) by (apply Rmult_le_pos; [exact K0|nra]).
    assert (HH3 : 0 <= hh * hh * hh) by (pose proof (Rmult_lt_0_compat _ _ (Rmult_lt_0_compat _ _ HH HH) HH); lra). assert (P4 : 0 <= 2 * M * (hh * hh * hh)) by (apply Rmult_le_pos; [lra|exact HH3]).
    assert (P3 : 0 <= INR i * (2 * M * (hh * hh * hh) + e)) by (apply Rmult_le_pos; lra).
    apply Rmult_le_compat; [left; apply exp_pos|lra| |].
    - apply exp_mono. replace (INR i * (2 * hh * L)) with (2 * L * (INR i * hh)) by ring. apply Rmult_le_compat_l; lra.
    - assert (Q1 : (1 + hh * L) * d <= (1 + h * L) * d) by (apply Rmult_le_compat_r; [exact D0|unfold hh; lra]). assert (Q2 : K * (hh * hh) = K / 4 * (h * h)) by (unfold hh; field).
      assert (Q3 : INR i * (2 * M * (hh * hh * hh)) <= T * (M / 2 * (h * h))).
      { replace (INR i * (2 * M * (hh * hh * hh))) with (INR i * hh * (M / 2 * (h * h))) by (unfold hh; field). apply Rmult_le_compat_r; [|exact NI]. apply Rmult_le_pos; [lra|nra]. }
      replace (T * (M / 2 * (h * h))) with (T * M / 2 * (h * h)) in Q3 by field.
      assert (Q4 : INR i * e <= 2 * T / h * e). { apply Rmult_le_compat_r; [exact EP|]. apply Rmult_le_reg_r with hh; [exact HH|]. replace (2 * T / h * hh) with T by (unfold hh; field; lra). exact NI. }
      lra. }
  pose proof (ptwo_step n g X C t0 (t0 + T) K M SO K0 M0 SC CC L d hh e B E y (2 * count) L0 D0 HH EP LIP LY FT Y0 R1 RS EPB XB) as TS.
  assert (LAST : near n (y (2 * count)%nat) (X (t0 + INR count * h)) E).
  { rewrite <- TE. intros j Hj. eapply Rle_trans; [apply (TS (2 * count)%nat); [lia|exact Hj]|]. apply EPB. lia. }
  assert (PE : 0 <= E) by (eapply Rle_trans; [apply (pbound_grows K M K0 M0 L d hh e L0 D0 HH EP 0)|apply (EPB 0%nat); lia]).
  assert (KH : 0 <= K / 8 * (h * h)) by (apply Rmult_le_pos; [lra|nra]). assert (HLB : 0 <= h * L * E) by (apply Rmult_le_pos; assumption).
  split.
  - intros half. exists (y (2 * count)%nat). split; [rewrite YU; reflexivity|exact LAST].
  - destruct (Nat.eq_dec count 0) as [Z|Z].
    + exists (y (2 * count)%nat). split; [rewrite YU; unfold g_state; rewrite ER, Z; reflexivity|]. intros j Hj. eapply Rle_trans; [apply LAST; exact Hj|]. lra.
    + assert (C1 : (0 < count)%nat) by lia. destruct (RUN C1) as (LV & LF & EF & CV).
      assert (LUS : length (g_u s') = n) by (rewrite <- YU; apply LY; lia).
      assert (SMO : exists z : list R, g_state (N:=FNum rnd) true (/ 2) s' = Ret z /\ length z = n /\ forall j, (j < n)%nat -> cmpR z j = rnd (rnd (cmpR (g_u s') j * / 2) + rnd (cmpR (g_v s') j * / 2))).
      { unfold g_state. rewrite ER, (proj2 (Nat.ltb_lt 0 count) C1). cbn [andb].
        assert (LX : length (lscale (N:=FNum rnd) (g_u s') (/ 2)) = n) by (rewrite (lscale_length (N:=FNum rnd)); exact LUS).
        assert (CX : forall (v : list R) j, length v = n -> (j < n)%nat -> cmpR (lscale (N:=FNum rnd) v (/ 2)) j = rnd (cmpR v j * / 2)).
        { intros v j Lv Hj. unfold cmpR, lscale. change (nT (FNum rnd)) with R. rewrite nth_indep with (d' := rnd (0 * / 2)) by (rewrite map_length, Lv; exact Hj). rewrite (map_nth (fun v : R => rnd (v * / 2))). reflexivity. }
        assert (LL : (length (lscale (N:=FNum rnd) (g_u s') (/ 2)) <= length (lscale (N:=FNum rnd) (g_v s') (/ 2)))%nat) by (rewrite !(lscale_length (N:=FNum rnd)); change (nT (FNum rnd)) with R in *; lia).
        eexists. split; [exact (lzip_ok (N:=FNum rnd) (nadd (FNum rnd)) _ _ LL)|]. split; [rewrite map_length, seq_length; exact LX|]. intros j Hj.
        unfold cmpR at 1. rewrite nth_map_seq by (change (nT (FNum rnd)) with R in *; lia). rewrite <- (CX _ j LUS Hj), <- (CX _ j LV Hj). reflexivity. }
      destruct SMO as (z & EZ & LZ & VZ). exists z. split; [exact EZ|]. rewrite <- TE. intros j Hj.
      set (i := (2 * count - 1)%nat) in *. assert (EI : (i + 1 = 2 * count)%nat) by (unfold i; lia).
      assert (BY : forall i, (i <= 2 * count)%nat -> bnd n (y i) B).
      { intros q Hq. apply (within n X t0 (t0 + T) hh B E y (2 * count) HH FT XB q (b q) Hq (EPB q Hq)). apply TS. exact Hq. }
      assert (TEb : Rabs (t0 + INR count * h) <= A - 1). { pose proof (pos_INR count). assert (0 <= INR count * h) by (apply Rmult_le_pos; lra). eapply Rle_trans; [apply Rabs_triang|]. rewrite (Rabs_right (INR count * h)) by lra. lra. }
      assert (TTb : Rabs (g_t s' - (t0 + INR count * h)) <= 3 * INR count * w * A). { eapply Rle_trans; [exact TT|]. pose proof (pos_INR count). assert (0 <= INR count * (w * A)) by (apply Rmult_le_pos; [lra|apply Rmult_le_pos; lra]). lra. }
      assert (BU : bnd n (g_u s') B) by (rewrite <- YU; apply BY; lia).
      destruct (slope_at u eta f (g_w s) n g S B G Lt phi U0 E0 CR SW B0 G0 Lt0 phi0 h t0 T count H0 HTm HC HW _ _ (g_u s') (g_f s') j LUS BU EF TEb TTb Hj) as [S1 S2].
      destruct (halves rnd u eta RD U0 E0 W1 h B (G + phi) ltac:(lra) B0 ltac:(lra) _ _ (BY i ltac:(lia) j Hj) S1) as (V1 & V2 & _). fold hh in V1, V2. rewrite <- (CV j Hj) in V1, V2.
      pose proof (smooth_err rnd u eta RD U0 E0 W1 h B (G + phi) ltac:(lra) B0 ltac:(lra) _ _ (BU j Hj) V1) as SE. rewrite <- (VZ j Hj) in SE.
      pose proof (scaled u eta Lt phi h t0 T count hh _ _ S2 ltac:(unfold hh; lra)) as SD.
      assert (ZZ : Rabs (cmpR z j - (cmpR (y (2 * count)%nat) j + (cmpR (y i) j + hh * cmpR (g (t0 + INR (2 * count) * hh) (y (2 * count)%nat)) j)) / 2) <= e).
      { rewrite TE, YU. match goal with |- Rabs (?p - (?q + (?a + ?c)) / 2) <= _ => replace (p - (q + (a + c)) / 2) with ((p - (q + cmpR (g_v s') j) / 2) + / 2 * ((cmpR (g_v s') j - (a + hh * cmpR (g_f s') j)) + (hh * cmpR (g_f s') j - c))) by field end.
        eapply Rle_trans; [apply Rabs_triang|]. rewrite Rabs_mult, (Rabs_right (/ 2)) by lra. eapply Rle_trans; [apply Rplus_le_compat_l, Rmult_le_compat_l; [lra|apply Rabs_triang]|].
        lra. }
      eapply Rle_trans; [exact (psmoothed n g X C t0 (t0 + T) K M SO K0 M0 SC CC L d hh e B E y (2 * count) L0 D0 HH EP LIP LY FT Y0 R1 RS EPB XB z i j e EI Hj ZZ)|].
      fold b. assert (b i <= E) by (apply EPB; lia). assert (PBB : 0 <= b i) by (apply (pbound_grows K M K0 M0 L d hh e L0 D0 HH EP)).
      assert ((1 + hh * L / 2) * b i <= (1 + h * L) * E) by (apply Rmult_le_compat; [unfold hh; lra|exact PBB|unfold hh; lra|assumption]).
      assert (K * (hh * hh) / 2 = K / 8 * (h * h)) by (unfold hh; field). lra.
Qed.
End Final.
