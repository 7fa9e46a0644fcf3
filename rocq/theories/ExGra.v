(** ExGra.v - concrete cases and refutations for C80. *)
From Coq Require Import List Arith Bool ZArith QArith Qcanon Lia Reals Lra Qreals.
From Verif Require Import Base BaseFacts VecModel VOps NewtModel RkModel RkSpec RkFacts StepModel StepSpec ExtModel ExtSpec ExtFacts5 ImpModel ConvSpec ConvFacts ConvFacts2 ConvFacts3 ConvFacts4 ConvFacts5 HighFacts5 ImcSpec ImcFacts3 XrkFacts7 GraFacts GraFacts2 ExConv ExXrk.
Import ListNotations.
Local Open Scope R_scope.

(** * x' = x, x(0) = 1 on [0, 1]: the computed value of e tends to e with the square of the step *)
Lemma exp_le1 t : 0 <= t <= 0 + 1 -> 0 <= exp t <= exp 1.
Proof. intros H. split; [left; apply exp_pos|]. apply exp_mono. lra. Qed.
Lemma exp_lip s t : 0 <= s <= 0 + 1 -> 0 <= t <= 0 + 1 -> Rabs (exp s - exp t) <= exp 1 * Rabs (s - t).
Proof.
  intros Hs Ht. destruct (Req_dec s t) as [->|NE]; [rewrite !Rminus_eq_0, Rabs_R0; lra|].
  destruct (mvt2 exp exp t s ltac:(lra) (fun u _ => derivable_pt_lim_exp u)) as (c & E & HC). rewrite E, Rabs_mult. apply Rmult_le_compat_r; [apply Rabs_pos|].
  assert (0 <= c <= 0 + 1) by (revert HC; unfold Rmin, Rmax; destruct (Rle_dec t s); lra). rewrite Rabs_right by (pose proof (exp_pos c); lra). apply exp_le1. assumption.
Qed.
Lemma exp_slopes : slope_changes 1 idf expX 0 (0 + 1) (exp 1).
Proof. intros s t [|j] Hs Ht Hj; [|lia]. unfold idf, expX, cmpR. cbn. apply exp_lip; assumption. Qed.
Lemma exp_curves : curvature_changes 1 idf expX (fun t _ => exp t) 0 (0 + 1) (exp 1).
Proof.
  split; [intros t [|j] Ht Hj; [|lia]; unfold idf, expX, cmpR; cbn; apply derivable_pt_lim_exp|]. intros s t j Hs Ht Hj. apply exp_lip; assumption.
Qed.
Example C80_exponential : forall h count, 0 < q2r h -> INR count * q2r h <= 1 ->
  exists s' z, g_steps (N:=QcNum) no_events same (qn 2) count (g_size (N:=QcNum) h (g_set (N:=QcNum) 0%Qc [1%Qc] gfresh)) = Some s' /\ g_state (N:=QcNum) false (1 / qn 2)%Qc s' = Ret z /\
    Rabs (cmpR (toR z) 0 - exp (INR count * q2r h)) <= exp 2 * (3 / 4 * exp 1 * (q2r h * q2r h)).
Proof.
  intros h count Hh HT. set (s := g_set (N:=QcNum) 0%Qc [1%Qc] gfresh). assert (T0 : q2r (g_t s) = 0) by apply q2r_0.
  assert (N0 : near 1 (toR (g_u s)) (expX (q2r (g_t s))) 0). { rewrite T0. intros [|j] Hj; [|lia]. unfold cmpR, expX. cbn. rewrite exp_0. unfold q2r. cbn. rewrite RMicromega.Q2R_1, Rminus_eq_0, Rabs_R0. lra. }
  pose proof (exp_pos 1) as E1. pose proof (@gragg_error unit same 1 idf expX (fun t _ => exp t) 1 (exp 1) (exp 1) 1 0 s h count) as GE. rewrite T0 in GE.
  destruct (GE same_computes ltac:(lra) (lip_x 1 1 idf (id_lip 1)) ltac:(lra) ltac:(lra) (exp_solves 0 (0 + 1)) exp_slopes exp_curves Hh HT eq_refl ltac:(lra) ltac:(rewrite T0 in N0; exact N0)) as (s' & E & ET & P & _).
  destruct (P (1 / qn 2)%Qc) as (z & EZ & NZ). exists s', z. split; [exact E|]. split; [exact EZ|]. specialize (NZ 0%nat ltac:(lia)). rewrite ET, Rplus_0_l in NZ. unfold expX, cmpR in NZ |- *. cbn [nth] in NZ. eapply Rle_trans; [exact NZ|].
  replace (2 * 1 * 1) with 2 by ring. right. field.
Qed.

(** * The order is exactly two: for x' = t^2, x(0) = 0 the error at time 1 is h^2 / 12 *)
Definition squares (w : unit) (t : Qc) (x : list Qc) : Outcome (list Qc) := Ret [(t * t)%Qc].
Lemma squares_good : good_rhs (N:=QcNum) 1 (squares tt). Proof. intros t x _. exists [(t * t)%Qc]. split; reflexivity. Qed.
Lemma squares_run h count : exists s', g_steps (N:=QcNum) no_events squares (qn 2) count (g_size (N:=QcNum) h (g_set (N:=QcNum) 0%Qc [0%Qc] gfresh)) = Some s' /\
  q2r (cmp_ (g_u s') 0) = (INR count * q2r h) ^ 3 / 3 - INR count * q2r h * (q2r h * q2r h) / 12.
Proof.
  destruct (gragg_new_size unit squares 1 h (g_set (N:=QcNum) 0%Qc [0%Qc] gfresh) squares_good eq_refl count) as (s' & y & slope & E & EY & (MP1 & MP2 & MP3) & ET & EU & _).
  exists s'. split; [exact E|]. rewrite EU. clear E ET EU.
  assert (P : forall k, (k <= count)%nat -> q2r (cmp_ (y (2 * k)%nat) 0) = (INR k * q2r h) ^ 3 / 3 - INR k * q2r h * (q2r h * q2r h) / 12).
  { induction k as [|k IH]; intros Hk; [change (2 * 0)%nat with 0%nat; rewrite EY; cbn; rewrite q2r_0; field|].
    replace (2 * S k)%nat with (2 * k + 2)%nat by lia. rewrite MP3, q2r_plus, q2r_mult, IH by lia. destruct (MP1 (2 * k + 1)%nat ltac:(lia)) as (_ & F). unfold squares in F. assert (F2 : slope (2 * k + 1)%nat = [((g_t (g_set (N:=QcNum) 0%Qc [0%Qc] gfresh) + qn (2 * k + 1) * (h / qn 2)) * (g_t (g_set (N:=QcNum) 0%Qc [0%Qc] gfresh) + qn (2 * k + 1) * (h / qn 2)))%Qc]) by (injection F as F; symmetry; exact F). rewrite F2. clear F F2. cbn [nth cmp_].
    unfold cmp_. cbn [nth]. cbn [g_t g_set]. rewrite q2r_mult, q2r_plus, q2r_mult, q2r_0, q2r_qn, q2r_div2, plus_INR, mult_INR, (S_INR k). cbn [INR]. field. }
  apply P. lia.
Qed.
Theorem C80_third_order_refuted : ~ exists C, forall h count s', 0 < q2r h -> INR count * q2r h <= 1 ->
  g_steps (N:=QcNum) no_events squares (qn 2) count (g_size (N:=QcNum) h (g_set (N:=QcNum) 0%Qc [0%Qc] gfresh)) = Some s' ->
  near 1 (toR (g_u s')) [(INR count * q2r h) ^ 3 / 3] (C * q2r h ^ 3).
Proof.
  intros (C & HC). destruct (archimed (12 * Rabs C + 1)) as (AR & _). set (m := Z.to_nat (up (12 * Rabs C + 1))). pose proof (Rabs_pos C) as PC.
  assert (UP : (0 < up (12 * Rabs C + 1))%Z) by (apply lt_IZR; simpl; lra). assert (MI : INR m = IZR (up (12 * Rabs C + 1))) by (unfold m; rewrite INR_IZR_INZ, Z2Nat.id by lia; reflexivity). rewrite <- MI in AR.
  assert (MN : (m <> 0)%nat) by (intros Q; rewrite Q in AR; cbn [INR] in AR; lra). assert (QN : qn m <> 0%Qc). { intros Q. apply (f_equal q2r) in Q. rewrite q2r_qn, q2r_0 in Q. lra. }
  assert (EH : q2r (1 / qn m)%Qc = / INR m). { assert (Q : INR m * q2r (1 / qn m)%Qc = 1) by (rewrite <- q2r_qn, <- q2r_mult; transitivity (q2r 1%Qc); [f_equal; field; exact QN|apply q2r_1]). apply (Rmult_eq_reg_l (INR m)); [|lra]. rewrite Q. field. lra. }
  destruct (squares_run (1 / qn m)%Qc m) as (s' & E & V). assert (IP : 0 < / INR m) by (apply Rinv_0_lt_compat; lra).
  specialize (HC (1 / qn m)%Qc m s' ltac:(rewrite EH; exact IP) ltac:(rewrite EH, Rinv_r by lra; lra) E 0%nat ltac:(lia)). rewrite toR_cmp, V, EH in HC. rewrite !Rinv_r in HC by lra. unfold cmpR in HC. cbn [nth] in HC. set (i := / INR m) in *.
  replace (1 ^ 3 / 3 - 1 * (i * i) / 12 - 1 ^ 3 / 3) with (- (i * i / 12)) in HC by field. rewrite Rabs_Ropp, Rabs_right in HC by (apply Rle_ge; unfold Rdiv; apply Rmult_le_pos; nra).
  assert (Q : i * i / 12 <= Rabs C * i ^ 3) by (eapply Rle_trans; [exact HC|]; apply Rmult_le_compat_r; [apply pow_le; lra|apply Rle_abs]).
  assert (II : i * INR m = 1) by (unfold i; field; lra). assert (Q2 : i * i * (INR m / 12) <= i * i * Rabs C).
  { apply (Rmult_le_compat_r (INR m)) in Q; [|lra]. replace (Rabs C * i ^ 3 * INR m) with (i * i * Rabs C * (i * INR m)) in Q by ring. rewrite II in Q. lra. }
  apply Rmult_le_reg_l in Q2; [lra|nra].
Qed.

(** * The midpoint rule is only weakly stable: for x' = -x, whose solutions decay, the plain state grows; with h = 1 it is 5/2 after four steps from 1 *)
Definition decay (w : unit) (t : Qc) (x : list Qc) : Outcome (list Qc) := Ret (map Qcopp x).
Definition plain_after (count : nat) : option (list Q) :=
  match g_steps (N:=QcNum) no_events decay (qn 2) count (g_size (N:=QcNum) 1%Qc (g_set (N:=QcNum) 0%Qc [1%Qc] gfresh)) with Some s => Some (map this (g_u s)) | None => None end.
Theorem C80_decay_refuted : ~ forall count y, plain_after count = Some [y] -> (y <= 1)%Q.
Proof. intros H. assert (E : plain_after 4 = Some [(5 # 2)%Q]) by (vm_compute; reflexivity). specialize (H 4%nat _ E). apply H. reflexivity. Qed.
