(** ExGrd.v - a concrete case and a refutation for C90. *)
From Coq Require Import List Arith Bool ZArith Lia Lra Permutation Reals.
From Flocq Require Import Core IEEE754.BinarySingleNaN.
From Verif Require Import Base BaseFacts VecModel VOps MapModel NewtModel NewtSpec RkModel RkSpec StepSpec ExtModel ImpModel ImpSpec ConvSpec FpSpec ImcSpec IfpSpec FpFacts4 GrfSpec IeeeSpec IeeeFacts IeeeFacts4 PropGrd ExIfp.
Import ListNotations.
Local Open Scope R_scope.

Lemma power_holds e : (-1000 <= e <= 1000)%Z -> holds (toD (bpow radix2 e)) (bpow radix2 e).
Proof.
  intros He. assert (E : binary64 (bpow radix2 e) = bpow radix2 e). { apply round_generic; [apply valid_rnd_N|]. apply generic_format_FLT_bpow; [reflexivity|lia]. }
  rewrite <- E at 2. apply to_holds. rewrite Rabs_pos_eq by apply bpow_ge_0. replace (2 ^ 1002) with (bpow radix2 1002) by (symmetry; apply big_bpow). apply bpow_le. lia.
Qed.
(** x' = (t - x) + 1 computed in doubles, and the numbers it computes. *)
Definition drawD (t : double) (x : list double) : list double := [nadd DNum (nsub DNum t (nth 0 x dzero)) Bone].
Definition drawF (t : R) (x : list R) : list R := [binary64 (binary64 (t - cmpR x 0) + 1)].
Lemma draw_holds S B : 0 <= S -> 0 <= B -> S <= 2 ^ 900 -> B <= 2 ^ 900 -> rhs_holds 1 S B (4 * (S + B + 1)) drawD drawF.
Proof.
  intros S0 B0 S1 B1 tD xD t x HT (L1 & L2 & HX) ST BX. pose proof u_small as [U0 U1]. assert (BG : 2 ^ 900 * 8 <= 2 ^ 1002) by (replace (2 ^ 900 * 8) with (2 ^ 903) by (change 903%nat with (900 + 3)%nat; rewrite pow_add; simpl; ring); apply Rle_pow; [lra|lia]).
  pose proof (pow_R1_Rle 2 900 ltac:(lra)) as O. specialize (HX 0%nat ltac:(lia)). specialize (BX 0%nat ltac:(lia)).
  assert (A1 : Rabs (t - cmpR x 0) <= S + B) by (unfold Rminus; eapply Rle_trans; [apply Rabs_triang|]; rewrite Rabs_Ropp; lra). pose proof (sizeU _ _ A1) as A2.
  assert (A3 : Rabs (binary64 (t - cmpR x 0) + 1) <= 2 * (S + B) + U + 1) by (eapply Rle_trans; [apply Rabs_triang|]; rewrite Rabs_R1; lra). pose proof (sizeU _ _ A3) as A4.
  split; [split; [reflexivity|split; [reflexivity|]]|]; intros [|j] Hj; try lia; unfold drawF, drawD; unfold cmpR at 1; cbn [nth].
  - apply d_add; [apply d_sub; [exact HT|exact HX|lra]|split; [reflexivity|apply Bone_correct]|lra].
  - lra.
Qed.
Lemma draw_near : computes_near 1 6 3 (32 * U) (fun t x => Ret (drawF t x)) draw.
Proof.
  intros t x L. exists (drawF t x). split; [reflexivity|]. destruct x as [|a [|? x]]; try discriminate L. split; [reflexivity|]. intros T0 BX [|j] Hj; [|lia]. specialize (BX 0%nat Hj). unfold drawF, cmpR in *. cbn [nth draw] in *.
  pose proof u_small as [U0 U1]. assert (A1 : Rabs (t - a) <= 9) by (unfold Rminus; eapply Rle_trans; [apply Rabs_triang|]; rewrite Rabs_Ropp; lra). pose proof (err (t - a)) as E1. pose proof (sizeU _ _ A1) as A2.
  assert (A3 : Rabs (binary64 (t - a) + 1) <= 20) by (eapply Rle_trans; [apply Rabs_triang|]; rewrite Rabs_R1; lra). pose proof (err (binary64 (t - a) + 1)) as E2.
  assert (U * Rabs (t - a) <= U * 9) by (apply Rmult_le_compat_l; lra). assert (U * Rabs (binary64 (t - a) + 1) <= U * 20) by (apply Rmult_le_compat_l; lra).
  match goal with |- Rabs (?p - (?q + 1)) <= _ => replace (p - (q + 1)) with ((p - (binary64 (t - a) + 1)) + (binary64 (t - a) - q)) by ring end. eapply Rle_trans; [apply Rabs_triang|]. lra.
Qed.
(** x' = (t - x) + 1 from x = 0 at t = 0 in doubles, steps of 1/64 over a time of 2: the state is finite and within 1/10^7 of the line x = t. *)
Definition gD0 : gst DNum unit := mkG (N:=DNum) dzero [dzero] [] [] false Bone tt.
Example C90_case : forall count : nat, (count <= 128)%nat ->
  exists s' t x, g_steps (N:=DNum) no_events (rhs_ofD drawD) (toD (bpow radix2 1)) count (g_size (N:=DNum) (toD (bpow radix2 (-6))) gD0) = Some s' /\ holds (g_t s') t /\ holdsV 1 (g_u s') x /\
    near 1 x (lineX (0 + INR count * / 64)) (/ 10000000).
Proof.
  intros count HC. destruct C87_hypotheses as (RD & _ & U0 & E0 & W & _). set (w := / 2 ^ 53 + / 2 ^ 1075) in *.
  assert (W1 : / 2 ^ 52 = / 4503599627370496) by (f_equal; lra). assert (WS : 0 <= w <= / 4503599627370496) by (unfold w in *; lra). assert (UU : 0 <= U <= / 4503599627370496) by (unfold w, U in *; lra).
  assert (IC : 0 <= INR count <= 128). { split; [apply pos_INR|]. replace 128 with (INR 128) by (cbn; lra). apply le_INR. exact HC. }
  assert (C2 : 3 * INR count * w <= 1). { apply Rle_trans with (3 * 128 * / 4503599627370496); [|lra]. apply Rmult_le_compat; lra. }
  pose proof (draw_slopes 6 3 ltac:(lra) ltac:(lra)) as SW.
  assert (NX : near 1 [0] (lineX 0) 0) by (intros [|j] Hj; [|lia]; unfold cmpR, lineX; cbn [nth]; rewrite Rminus_diag_eq, Rabs_R0 by reflexivity; lra).
  assert (EX : exp (2 * 1 * 2) <= 81).
  { replace (2 * 1 * 2) with (1 + 1 + (1 + 1)) by ring. rewrite !exp_plus. pose proof exp_le_3 as Q. pose proof (exp_pos 1) as Q0. assert (exp 1 * exp 1 <= 9) by nra. assert (0 < exp 1 * exp 1) by nra. nra. }
  assert (CC : curvature_changes 1 draw lineX (fun _ _ => 0) 0 (0 + 2) 0).
  { split.
    - intros t [|j] _ Hj; [|lia]. unfold cmpR, lineX, draw. cbn [nth]. intros e He. exists (mkposreal 1 Rlt_0_1). intros k Hk _. replace (_ / k - 0) with 0 by (field; exact Hk). rewrite Rabs_R0. exact He.
    - intros a b j _ _ _. rewrite Rminus_diag_eq, Rabs_R0 by reflexivity. lra. }
  assert (HH : holds (toD (bpow radix2 (-6))) (/ 64)) by (exact (power_holds (-6) ltac:(lia))). assert (H2 : holds (toD (bpow radix2 1)) 2) by (exact (power_holds 1 ltac:(lia))).
  assert (HX : holdsV 1 [dzero] [0]) by (split; [reflexivity|split; [reflexivity|]]; intros [|j] Hj; [|lia]; split; reflexivity).
  pose proof (C90_error unit 1 drawD drawF draw 6 3 (1 + 6 + 3) 1 (32 * U) lineX (fun _ _ => 0) 1 0 0 2 0 (toD (bpow radix2 (-6))) (/ 64) count (toD (bpow radix2 1)) gD0 0 [0] 1000
    draw_near SW ltac:(lra) ltac:(lra) ltac:(lra) ltac:(lra) ltac:(intros t x _; reflexivity) ltac:(intros t x _; reflexivity) ltac:(lra) draw_lip ltac:(lra) ltac:(lra)) as TH.
  cbv zeta in TH. fold w in TH. rewrite Rabs_R0 in TH.
  set (eps := gragg_noise 3 (1 + 6 + 3) 1 (1 + 0 + 2) 2 (/ 64) w (32 * U)) in *.
  set (E := exp (2 * 1 * 2) * _) in TH.
  assert (EPS : 0 <= eps <= 900 * / 4503599627370496).
  { assert (UW : 0 <= U * w <= U * / 4503599627370496) by (split; [apply Rmult_le_pos; lra|apply Rmult_le_compat_l; lra]). unfold eps, gragg_noise.
    replace ((40 * (1 + 3 + (1 + 6 + 3) + 32 * U) * (1 + / 64) + 3 * 2 * 1 * (1 + 0 + 2)) * w + / 64 * (32 * U)) with ((40 * 14 * (65 / 64) + 18) * w + 1300 * (U * w) + U / 2) by field. lra. }
  assert (EE : 0 <= E <= 81 * (257 * (900 * / 4503599627370496))).
  { unfold E. pose proof (exp_pos (2 * 1 * 2)). split; [apply Rmult_le_pos; lra|]. apply Rmult_le_compat; lra. }
  assert (B9 : 2 ^ 20 <= 2 ^ 900) by (apply Rle_pow; [lra|lia]). replace (2 ^ 20) with 1048576 in B9 by (simpl; lra). assert (B10 : 2 ^ 900 <= 2 ^ 1000) by (apply Rle_pow; [lra|lia]).
  set (V := 12 * 3 + 8 * _ + 16) in TH. assert (VV : 0 <= V <= 53) by (unfold V; lra).
  assert (GS : 0 <= gragg_size V 1000 (/ 64) <= 180) by (unfold gragg_size; rewrite (Rabs_pos_eq (/ 64)) by lra; fold U; lra).
  assert (GT : gragg_time (/ 64) 6 <= 16 /\ 0 <= gragg_time (/ 64) 6) by (unfold gragg_time; rewrite (Rabs_pos_eq (/ 64)) by lra; lra).
  destruct TH as (s' & t & x & ES & HT & _ & HU & NU & _);
    [exact (lineX_solves _ _)|exact (lineX_slope _ _)|exact CC|lra|exact HH|exact H2|lra|lra|exact C2|split; reflexivity|exact HX|lra|exact NX| |lra|lra|lra| |].
  { intros t Ht [|j] Hj; [|lia]. unfold cmpR, lineX. cbn [nth]. rewrite Rabs_pos_eq; lra. }
  { intros tD xD t x Q1 Q2 Q3 Q4. destruct (draw_holds (gragg_time (/ 64) 6) (gragg_size V 1000 (/ 64)) ltac:(lra) ltac:(lra) ltac:(lra) ltac:(lra) tD xD t x Q1 Q2 Q3 Q4) as [P1 P2]. split; [exact P1|].
    intros j Hj. eapply Rle_trans; [apply P2; exact Hj|]. lra. }
  exists s', t, x. split; [exact ES|]. split; [exact HT|]. split; [exact HU|]. intros j Hj. eapply Rle_trans; [apply NU; exact Hj|]. lra.
Qed.
Print Assumptions C90_case.

(** The sizes matter: x' = x with h = 1 from the double 379 * 2^1014.  After one step the state is 2.5 times this and finite; v, 2.75 times this, has overflowed, and so the smoothed state is infinite,
    although the mean of the two, 2.625 times the initial state, is below 2^1024. *)
Definition near_max : double := binary_normalize 53 1024 double_prec double_range mode_NE 379 1014 false.
Definition two_D : double := binary_normalize 53 1024 double_prec double_range mode_NE 1 1 false.
Definition half_D : double := binary_normalize 53 1024 double_prec double_range mode_NE 1 (-1) false.
Definition after_D : option (gst DNum unit) := g_steps (N:=DNum) no_events (rhs_ofD (W:=unit) (fun _ x => x)) two_D 1 (g_size (N:=DNum) Bone (mkG (N:=DNum) dzero [near_max] [] [] false Bone tt)).
Theorem C90_smoothed_overflow_refuted : ~ (forall s' z, after_D = Some s' -> forallb is_finite (g_u s') = true -> g_state (N:=DNum) true half_D s' = Ret z -> forallb is_finite z = true).
Proof.
  intros H.
  assert (E : match after_D with Some s' => forallb is_finite (g_u s') && match g_state (N:=DNum) true half_D s' with Ret z => negb (forallb is_finite z) | _ => false end | None => false end = true) by (vm_compute; reflexivity).
  destruct after_D as [s'|]; [|discriminate E]. apply andb_true_iff in E. destruct E as [E1 E2]. destruct (g_state (N:=DNum) true half_D s') as [z| |] eqn:EZ; try discriminate E2.
  rewrite (H s' z eq_refl E1 EZ) in E2. discriminate E2.
Qed.
Print Assumptions C90_smoothed_overflow_refuted.
