From Coq Require Import List Arith Bool ZArith QArith Qcanon Lia Lqa.
From Verif Require Import Base BaseFacts VecModel VOps RkModel RkSpec RkFacts RkFacts2 RkFacts3 RkFacts4 RkFacts6 RkFacts7 EvModel ModModel ModSpec ModFacts2.
Import ListNotations.
Local Open Scope nat_scope.

Lemma osc_good c f : good_rhs (N:=QcNum) 2 (osc_rhs (N:=QcNum) c f).
Proof. intros t x L. change (nT QcNum) with Qc in *. destruct x as [|y [|v [|? ?]]]; try discriminate. cbn. eexists. split; reflexivity. Qed.
Lemma two (x : list Qc) : length x = 2 -> x = [cmp_ x 0; cmp_ x 1].
Proof. intros L. destruct x as [|y [|v [|? ?]]]; try discriminate. reflexivity. Qed.
Lemma osc_slope c f t x k : length x = 2 -> osc_rhs (N:=QcNum) c f t x = Ret k -> cmp_ k 0 = cmp_ x 1 /\ cmp_ k 1 = (f - c * cmp_ x 0)%Qc.
Proof. intros L E. rewrite (two x L) in E. cbn in E. injection E as <-. split; reflexivity. Qed.

Section Osc.
Context (c f h : Qc).
Lemma osc_euler t x t' x' : length x = 2 -> textbook_step tab_euler 1 2 (osc_rhs (N:=QcNum) c f) h (t, x) (t', x') -> osc_energy c f x' = ((1 + c * (h * h)) * osc_energy c f x)%Qc.
Proof.
  intros L [_ [evals [k [[_ [_ ST]] [Lx' RS]]]]]. cbn [fst snd] in *.
  destruct (ST 0 ltac:(lia)) as [a0 [_ [E0 [L0 F0]]]]. destruct (osc_slope c f _ _ _ L0 E0) as [K00 K01].
  pose proof (F0 0 ltac:(lia)) as A00. pose proof (F0 1 ltac:(lia)) as A01. cbn [qsum] in A00, A01.
  pose proof (RS 0 ltac:(lia)) as R0. pose proof (RS 1 ltac:(lia)) as R1. cbn [qsum] in R0, R1.
  change (B_ tab_euler 1 0 0) with (qc 1 1) in *. assert (Q1 : qc 1 1 = 1%Qc) by (apply Qc_is_canon; reflexivity).
  unfold osc_energy. rewrite R0, R1, K00, K01, A00, A01, Q1. ring.
Qed.
Lemma osc_rk4 t x t' x' : length x = 2 -> textbook_step tab_rk4 4 2 (osc_rhs (N:=QcNum) c f) h (t, x) (t', x') -> osc_energy c f x' = (rk4_factor c h * osc_energy c f x)%Qc.
Proof.
  intros L [_ [evals [k [[_ [_ ST]] [Lx' RS]]]]]. cbn [fst snd] in *.
  assert (Q1 : qc 1 1 = 1%Qc) by (apply Qc_is_canon; reflexivity). assert (Q2 : qc 1 2 = (1 / (1 + 1))%Qc) by (apply Qc_is_canon; reflexivity).
  assert (Q3 : qc 1 3 = (1 / (1 + 1 + 1))%Qc) by (apply Qc_is_canon; reflexivity). assert (Q6 : qc 1 6 = (1 / ((1 + 1) * (1 + 1 + 1)))%Qc) by (apply Qc_is_canon; reflexivity).
  destruct (ST 0 ltac:(lia)) as [a0 [_ [E0 [L0 F0]]]]. destruct (osc_slope c f _ _ _ L0 E0) as [K00 K01].
  destruct (ST 1 ltac:(lia)) as [a1 [_ [E1 [L1 F1]]]]. destruct (osc_slope c f _ _ _ L1 E1) as [K10 K11].
  destruct (ST 2 ltac:(lia)) as [a2 [_ [E2 [L2 F2]]]]. destruct (osc_slope c f _ _ _ L2 E2) as [K20 K21].
  destruct (ST 3 ltac:(lia)) as [a3 [_ [E3 [L3 F3]]]]. destruct (osc_slope c f _ _ _ L3 E3) as [K30 K31].
  pose proof (F0 0 ltac:(lia)) as A00. pose proof (F0 1 ltac:(lia)) as A01. pose proof (F1 0 ltac:(lia)) as A10. pose proof (F1 1 ltac:(lia)) as A11.
  pose proof (F2 0 ltac:(lia)) as A20. pose proof (F2 1 ltac:(lia)) as A21. pose proof (F3 0 ltac:(lia)) as A30. pose proof (F3 1 ltac:(lia)) as A31.
  pose proof (RS 0 ltac:(lia)) as R0. pose proof (RS 1 ltac:(lia)) as R1. clear ST RS F0 F1 F2 F3 E0 E1 E2 E3.
  cbn [qsum] in *. change (A_ tab_rk4 1 0) with (qc 1 2) in *. change (A_ tab_rk4 2 0) with 0%Qc in *. change (A_ tab_rk4 2 1) with (qc 1 2) in *.
  change (A_ tab_rk4 3 0) with 0%Qc in *. change (A_ tab_rk4 3 1) with 0%Qc in *. change (A_ tab_rk4 3 2) with (qc 1 1) in *.
  change (B_ tab_rk4 4 0 0) with (qc 1 6) in *. change (B_ tab_rk4 4 0 1) with (qc 1 3) in *. change (B_ tab_rk4 4 0 2) with (qc 1 3) in *. change (B_ tab_rk4 4 0 3) with (qc 1 6) in *.
  set (y := cmp_ x 0) in *. set (v := cmp_ x 1) in *.
  assert (U0 : (c * cmp_ a0 0 - f = c * y - f)%Qc) by (rewrite A00; ring).
  unfold osc_energy. rewrite R0, R1. fold y v. rewrite K31, K30, A30, A31, K21, K20, A20, A21, K11, K10, A10, A11, K01, K00, A00, A01, Q1, Q2, Q3, Q6. unfold rk4_factor.
  assert (Q72 : qc 72 1 = ((1 + 1) * (1 + 1) * (1 + 1) * (1 + 1 + 1) * (1 + 1 + 1))%Qc) by (apply Qc_is_canon; reflexivity).
  assert (Q576 : qc 576 1 = ((1 + 1) * (1 + 1) * (1 + 1) * (1 + 1) * (1 + 1) * (1 + 1) * (1 + 1 + 1) * (1 + 1 + 1))%Qc) by (apply Qc_is_canon; reflexivity).
  rewrite Q72, Q576. field. repeat split; discriminate.
Qed.
Lemma history_energy co stages q : wf_table co stages 1 -> co_last co = (-1)%Z ->
  (forall t x t' x', length x = 2 -> textbook_step co stages 2 (osc_rhs (N:=QcNum) c f) h (t, x) (t', x') -> osc_energy c f x' = (q * osc_energy c f x)%Qc) ->
  forall (W : Type) t0 x0 (s0 : rkst QcNum W) count, length x0 = 2 ->
  exists s' posts, rk_steps (N:=QcNum) no_events (fun _ => osc_rhs (N:=QcNum) c f) co 2 h count (rk_set (N:=QcNum) no_events t0 x0 s0) = Ret (s', posts) /\
    length (rk_x s') = 2 /\ rk_t s' = (t0 + qn count * h)%Qc /\ osc_energy c f (rk_x s') = (qpow q count * osc_energy c f x0)%Qc.
Proof.
  intros WF LL ST W t0 x0 s0 count L0.
  destruct (fixed_history W (fun _ => osc_rhs (N:=QcNum) c f) co stages 2 h WF LL (rk_w s0) (osc_good c f) t0 x0 s0 count eq_refl L0) as [s' [posts [traj [E [_ [T0 [TC [TT TS]]]]]]]].
  exists s', posts. split; [exact E|].
  assert (K : forall k, k <= count -> length (snd (traj k)) = 2 /\ osc_energy c f (snd (traj k)) = (qpow q k * osc_energy c f x0)%Qc).
  { induction k as [|k IK]; intros Hk; [rewrite T0; cbn [snd qpow]; split; [assumption|ring]|]. destruct (IK ltac:(lia)) as [Lk Ek]. pose proof (TS k ltac:(lia)) as S1.
    destruct (traj k) as [tk xk] eqn:EK. destruct (traj (S k)) as [tk' xk'] eqn:EK'. cbn [snd] in *. split; [destruct S1 as [_ [? [? [_ [L' _]]]]]; exact L'|].
    rewrite (ST _ _ _ _ Lk S1), Ek. cbn [qpow]. ring. }
  destruct (K count ltac:(lia)) as [Lc Ec]. rewrite TC in *. cbn [snd] in *. auto.
Qed.
End Osc.
