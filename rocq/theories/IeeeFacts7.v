(** IeeeFacts7.v - second order convergence of the Gragg solver in doubles. *)
From Coq Require Import List Arith Bool ZArith Lia Reals Lra.
From Flocq Require Import Core IEEE754.BinarySingleNaN.
From Verif Require Import Base BaseFacts VecModel VOps NewtModel NewtFacts ImpFacts RkModel RkSpec StepSpec ExtModel ConvSpec ConvFacts FpSpec FpFacts FpFacts4 ImcSpec IfpSpec IfpFacts3 IfpFacts5 GrfSpec GrfFacts3 GrfFacts4 IeeeSpec IeeeFacts IeeeFacts6.
Import ListNotations.
Local Open Scope R_scope.
Notation b64 := binary64.

(** The size of v follows from those of u and of the smoothed state. *)
Lemma smoothed_size (u v b z : R) : Rabs u <= b -> Rabs (b64 (b64 (u * / 2) + b64 (v * / 2))) <= z -> Rabs v <= 8 * z + 4 * b + 16.
Proof.
  intros HU HZ. pose proof u_small as [U0 U1]. set (p := b64 (u * / 2)) in *. set (q := b64 (v * / 2)) in *.
  assert (A1 : forall x, Rabs x <= 2 * Rabs (b64 x) + 1).
  { intros x. pose proof (err x) as E. pose proof (Rabs_pos x) as PX. assert (Rabs x <= Rabs (b64 x) + (U * Rabs x + U)).
    { replace (Rabs x) with (Rabs (b64 x - (b64 x - x))) at 1 by (f_equal; ring). eapply Rle_trans; [apply Rabs_triang|]. rewrite Rabs_Ropp. lra. }
    assert (U * Rabs x <= / 65536 * Rabs x) by (apply Rmult_le_compat_r; lra). pose proof (Rabs_pos (b64 x)). lra. }
  assert (P1 : Rabs p <= b + U). { pose proof (sizeU (u * / 2) (b / 2) ltac:(rewrite Rabs_mult, (Rabs_pos_eq (/ 2)) by lra; lra)) as S. fold p in S. lra. }
  pose proof (A1 (p + q)) as A2. assert (Q1 : Rabs q <= Rabs (p + q) + Rabs p). { replace q with ((p + q) + - p) at 1 by ring. eapply Rle_trans; [apply Rabs_triang|]. rewrite Rabs_Ropp. lra. }
  pose proof (A1 (v * / 2)) as A3. fold q in A3. rewrite Rabs_mult, (Rabs_pos_eq (/ 2)) in A3 by lra. lra.
Qed.

Lemma gragg_double (W : Type) n gD g gx S B G Lt phi X C L K M T d hD h count twoD (sD : gst DNum W) t0 x0 H :
  computes_near n S B phi (fun t x => Ret (g t x)) gx -> slopes_within n S B G Lt gx -> 0 <= B -> 0 <= G -> 0 <= Lt -> 0 <= phi -> sizedD n gD -> sized n g ->
  0 <= L -> lipschitz_x n L gx -> 0 <= K -> 0 <= M -> let w := / 2 ^ 53 + / 2 ^ 1075 in let A := 1 + Rabs t0 + T in
  solves n gx X t0 (t0 + T) -> slope_changes n gx X t0 (t0 + T) K -> curvature_changes n gx X C t0 (t0 + T) M ->
  0 < h -> holds hD h -> holds twoD 2 -> 2 * A <= S -> INR count * h <= T -> 3 * INR count * w <= 1 -> holds (g_t sD) t0 -> holdsV n (g_u sD) x0 -> 0 <= d -> near n x0 (X t0) d ->
  let eps := gragg_noise B G Lt A T h w phi in
  let E := exp (2 * L * T) * ((1 + h * L) * d + (K / 4 + T * M / 2) * (h * h) + (1 + 2 * T / h) * eps) in
  let E2 := (1 + h * L) * E + K / 8 * (h * h) + eps in
  (forall t, t0 <= t <= t0 + T -> bound n (X t) (B - E)) ->
  let V := 12 * B + 8 * E2 + 16 in 0 <= H -> gragg_size V H h <= 2 ^ 1000 -> gragg_time h S <= 2 ^ 1000 -> rhs_holds n (gragg_time h S) (gragg_size V H h) H gD g ->
  exists s' t x, g_steps (N:=DNum) no_events (rhs_ofD gD) twoD count (g_size (N:=DNum) hD sD) = Some s' /\ holds (g_t s') t /\ Rabs (t - (t0 + INR count * h)) <= 2 * INR count * w * A /\
    holdsV n (g_u s') x /\ near n x (X (t0 + INR count * h)) E /\
    forall halfD, holds halfD (/ 2) -> exists zD z, g_state (N:=DNum) true halfD s' = Ret zD /\ holdsV n zD z /\ near n z (X (t0 + INR count * h)) E2.
Proof.
  intros CR SW B0 G0 Lt0 phi0 SZD SZ L0 LIP K0 M0 w A SO SC CC H0 HH H2 HTm HC HW HT HX D0 Y0 eps E E2 XB V H00 RB RS RH.
  assert (U0 : 0 <= / 2 ^ 53) by (left; apply Rinv_0_lt_compat, pow_lt; lra). assert (N0 : 0 <= / 2 ^ 1075) by (left; apply Rinv_0_lt_compat, pow_lt; lra).
  assert (w0 : 0 <= w) by (unfold w; lra). assert (W1 : w <= 1) by (pose proof u_small; pose proof eta_small; unfold w, U in *; lra).
  set (s := mkG (N:=FNum b64) (W:=unit) t0 x0 [] [] false h tt).
  assert (LU : length x0 = n) by apply HX. pose proof (pos_INR count) as PC. pose proof (Rabs_pos t0) as PT.
  assert (T0 : 0 <= T) by (eapply Rle_trans; [|exact HC]; apply Rmult_le_pos; lra).
  assert (MM : forall m, (m <= count)%nat -> INR m * h <= INR count * h /\ INR m * w <= INR count * w /\ 0 <= INR m * h /\ 0 <= INR m * w).
  { intros m Hm. apply le_INR in Hm. pose proof (pos_INR m). repeat split; try (apply Rmult_le_compat_r; lra); apply Rmult_le_pos; lra. }
  assert (RUN : forall m, (m <= count)%nat -> exists s', g_steps (N:=FNum b64) no_events (rhs_ofF b64 g) 2 m (g_size (N:=FNum b64) h s) = Some s' /\ Rabs (g_t s' - (t0 + INR m * h)) <= 2 * INR m * w * A /\
    (forall half, exists z : list R, g_state (N:=FNum b64) false half s' = Ret z /\ near n z (X (t0 + INR m * h)) E) /\
    exists z : list R, g_state (N:=FNum b64) true (/ 2) s' = Ret z /\ near n z (X (t0 + INR m * h)) E2).
  { intros m Hm. destruct (MM m Hm) as (M1 & M2 & M3 & M4).
    exact (gragg_rounded b64 (/ 2 ^ 53) (/ 2 ^ 1075) (fun (_ : unit) t x => Ret (g t x)) n gx S B G Lt phi binary64_rounds U0 N0 W1 s CR SW B0 G0 Lt0 phi0 X C L K M T d h m L0 LIP K0 M0 SO SC CC H0 HTm ltac:(lra) ltac:(fold w; lra) LU D0 Y0 XB). }
  assert (A0 : 1 <= A) by (unfold A; lra).
  assert (EP : 0 <= eps). { destruct (basics (/ 2 ^ 53) (/ 2 ^ 1075) B G Lt phi U0 N0 B0 G0 Lt0 phi0 h t0 T count H0 HC HW) as (_ & _ & Z1 & _ & Z2 & Z3 & Z4). fold w A in Z1, Z2, Z3, Z4. fold eps in Z3. assert (0 <= h * (phi + Lt * (3 * INR count * w * A))) by (apply Rmult_le_pos; lra). lra. }
  assert (HL : 0 <= h * L) by (apply Rmult_le_pos; lra). assert (HHp : 0 <= h * h) by (apply Rmult_le_pos; lra). assert (TM : 0 <= T * M) by (apply Rmult_le_pos; lra).
  assert (TH : 0 <= 2 * T / h) by (unfold Rdiv; apply Rmult_le_pos; [lra|left; apply Rinv_0_lt_compat; exact H0]).
  assert (E0 : 0 <= E).
  { unfold E. apply Rmult_le_pos; [left; apply exp_pos|]. assert (0 <= (1 + h * L) * d) by (apply Rmult_le_pos; lra). assert (0 <= (K / 4 + T * M / 2) * (h * h)) by (apply Rmult_le_pos; lra). assert (0 <= (1 + 2 * T / h) * eps) by (apply Rmult_le_pos; lra). lra. }
  assert (E20 : E <= E2). { unfold E2. assert (0 <= h * L * E) by (apply Rmult_le_pos; lra). assert (0 <= K / 8 * (h * h)) by (apply Rmult_le_pos; lra). lra. }
  assert (V0 : B <= V) by (unfold V; lra).
  assert (BD : forall m s', (m <= count)%nat -> g_steps (N:=FNum b64) no_events (rhs_ofF b64 g) 2 m (g_size (N:=FNum b64) h s) = Some s' -> Rabs (g_t s' : R) <= S /\ bound n (g_u s') V /\ (g_run s' = true -> bound n (g_v s') V)).
  { intros m s' Hm Q. destruct (RUN m Hm) as (s1 & Q1 & TT & NN & z & EZ & NZ). rewrite Q in Q1. injection Q1 as <-. destruct (MM m Hm) as (M1 & M2 & M3 & M4).
    destruct (inv_run b64 (/ 2 ^ 53) (/ 2 ^ 1075) (fun (_ : unit) t x => Ret (g t x)) tt n gx S B G Lt phi binary64_rounds U0 N0 W1 CR SW B0 G0 Lt0 phi0 h t0 T count H0 HTm HC HW s LU eq_refl eq_refl m Hm) as (s2 & y & Q2 & IV & _).
    assert (EQ : Some s' = Some s2) by (rewrite <- Q; exact Q2). injection EQ as <-. destruct IV as (_ & _ & YU & _ & LY & ER & RV & _).
    assert (XM : bound n (X (t0 + INR m * h)) (B - E)) by (apply XB; lra).
    destruct (NN (/ 2)) as (zu & EU & NU). cbn [g_state andb] in EU. injection EU as <-.
    assert (BU : bound n (g_u s') B). { intros j Hj. replace B with ((B - E) + E) by ring. exact (near_bound n _ _ _ _ NU XM j Hj). }
    split; [|split].
    - assert (TA : 2 * INR m * w * A <= A) by (rewrite <- (Rmult_1_l A) at 2; apply Rmult_le_compat_r; lra).
      replace (g_t s' : R) with ((g_t s' - (t0 + INR m * h)) + (t0 + INR m * h)) by ring. eapply Rle_trans; [apply Rabs_triang|]. pose proof (Rabs_triang t0 (INR m * h)) as TR. rewrite (Rabs_pos_eq (INR m * h)) in TR by lra. unfold A in *. lra.
    - intros j Hj. eapply Rle_trans; [apply BU; exact Hj|exact V0].
    - intros RR. rewrite RR in ER. symmetry in ER. apply Nat.ltb_lt in ER. destruct (RV ER) as (LV & _). assert (LUS : length (g_u s') = n) by (rewrite <- YU; apply LY; lia).
      intros j Hj. assert (CX : forall v : list R, length v = n -> cmpR (lscale (N:=FNum b64) v (/ 2)) j = b64 (cmpR v j * / 2)).
      { intros v Lv. unfold cmpR, lscale. change (nT (FNum b64)) with R. rewrite nth_indep with (d' := b64 (0 * / 2)) by (rewrite map_length, Lv; exact Hj). apply (map_nth (fun v : R => b64 (v * / 2))). }
      unfold g_state in EZ. rewrite RR in EZ. cbn [andb] in EZ. unfold ladd in EZ. rewrite (lzip_ok (N:=FNum b64)) in EZ by (rewrite !(lscale_length (N:=FNum b64)); change (nT (FNum b64)) with R in *; lia). injection EZ as <-.
      pose proof (near_bound n _ _ _ _ NZ XM j Hj) as BZ. rewrite (lscale_length (N:=FNum b64)) in BZ. change (nT (FNum b64)) with R in *. rewrite LUS in BZ. unfold cmpR at 1 in BZ. rewrite nth_map_seq in BZ by exact Hj.
      assert (BZ2 : Rabs (b64 (cmpR (lscale (N:=FNum b64) (g_u s') (/ 2)) j + cmpR (lscale (N:=FNum b64) (g_v s') (/ 2)) j)) <= B - E + E2) by exact BZ.
      rewrite !CX in BZ2 by assumption. pose proof (smoothed_size _ _ _ _ (BU j Hj) BZ2). unfold V. lra. }
  destruct (gragg_same_run (W:=W) (W':=unit) n gD g hD twoD h V H S HH H2 ltac:(lra) H00 ltac:(lra) RB RS RH SZD SZ sD s count HT HX BD) as (sD' & s' & R1 & R2 & R3 & R4 & R5).
  destruct (RUN count (le_n _)) as (s1 & Q1 & TT & NN & z & EZ & NZ). rewrite R2 in Q1. injection Q1 as <-.
  destruct (NN (/ 2)) as (zu & EU & NU). cbn [g_state andb] in EU. injection EU as <-.
  exists sD', (g_t s'), (g_u s'). split; [exact R1|]. split; [exact R3|]. split; [exact TT|]. split; [exact R4|]. split; [exact NU|].
  intros halfD HF. destruct (R5 true halfD HF) as (zD & z' & P1 & P2 & P3). rewrite EZ in P2. injection P2 as <-. exists zD, z. split; [exact P1|]. split; [exact P3|exact NZ].
Qed.
