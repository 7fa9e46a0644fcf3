(** RcvFacts3.v - convergence of the Rosenbrock solvers: runs. *)
From Coq Require Import List Arith Bool Lia ZArith QArith Qcanon Reals Lra.
From Verif Require Import Base BaseFacts VecModel VOps SMap SpModel SpSpec LUSpec LUModel RkModel RkSpec StepModel RosModel RosSpec RosFacts3 RosFacts6 RosFacts7 ConvSpec ConvFacts ConvFacts3 ConvFacts5 HighFacts5 ImcSpec ImcFacts ImcFacts3 XrkFacts7 GraFacts GraFacts2 RcvFacts RcvSpec RcvFacts2.
Import ListNotations.
Local Open Scope R_scope.
Section Solver.
Context {W : Type} (ev : events QcNum W) (c : rcfg W) (f : Qc -> list Qc -> Outcome (list Qc)).
Hypothesis SAFE : r_safe ev c f.
Notation n := (rc_n c).
Context (g : R -> list R -> list R) (X : R -> list R) (A : R -> nat -> R) (L F K M ts T H : R).
Hypothesis CR : computes_rhs n f g.
Hypothesis L0 : 0 <= L.
Hypothesis LIP : lipschitz_x n L g.
Hypothesis K0 : 0 <= K.
Hypothesis F0 : 0 <= F.
Hypothesis SO : solves n g X ts (ts + T).
Hypothesis SC : slope_changes n g X ts (ts + T) K.
Hypothesis FB : forall t j, ts <= t <= ts + T -> (j < n)%nat -> Rabs (cmpR (g t (X t)) j) <= F.
Hypothesis D0 : rc_d c <> 0%Qc.
Notation eta := (stiffness c L).
Hypothesis HS : H * eta <= / 2.
Lemma exp_bound lam tl C e : 0 <= lam -> 0 <= tl <= T -> 0 <= e -> 0 <= C -> exp (lam * tl) * (e + tl * C) <= exp (lam * T) * (e + T * C).
Proof.
  intros LA (H1 & H2) He HC. apply Rmult_le_compat; [left; apply exp_pos|pose proof (Rmult_le_pos tl C H1 HC); lra| |].
  - apply exp_mono. apply Rmult_le_compat_l; assumption.
  - apply Rplus_le_compat_l. apply Rmult_le_compat_r; assumption.
Qed.
Lemma steps_pos l : Forall (fun h => 0 < q2r h <= H) l -> 0 <= total (map q2r l).
Proof. intros FL. apply total_pos. apply Forall_map. eapply Forall_impl; [|exact FL]. intros y (Y & _). exact Y. Qed.
Theorem w1_converges s l s' d : w1_reach ev c s -> q_k s = 0%nat -> w1_path ev c s l s' -> Forall (fun h => 0 < q2r h <= H) l -> total (map q2r l) <= T -> 0 <= H ->
  q2r (q_t s) = ts -> 0 <= d -> near n (toR (q_x s)) (X ts) d ->
  q2r (q_t s') = ts + total (map q2r l) /\ near n (toR (q_x s')) (X (q2r (q_t s'))) (exp (2 * L * T) * (d + T * (K + 2 * eta * F) * H)).
Proof.
  intros RE Q0 P FL TT H0 ET E0 NX. rewrite <- ET in NX. destruct (w1_error ev c f SAFE g X L F K ts (ts + T) H CR L0 LIP K0 F0 SO SC FB D0 HS s l s' P d RE ltac:(intros; contradiction) FL E0 ltac:(lra) ltac:(lra) NX) as (QT & QN).
  rewrite ET in QT. split; [exact QT|]. intros j Hj. eapply Rle_trans; [apply QN; exact Hj|]. pose proof (eta0 c L L0) as EP. pose proof (Rmult_le_pos _ _ EP F0).
  eapply Rle_trans; [apply exp_bound; [lra|split; [apply steps_pos; exact FL|exact TT]|exact E0|apply Rmult_le_pos; lra]|]. right. ring.
Qed.
Hypothesis M0 : 0 <= M.
Hypothesis CC : curvature_changes n g X A ts (ts + T) M.
Lemma sw_induction lam C s l s' : sw_path ev c s l s' -> 0 <= lam -> 0 <= C ->
  (forall s s1 p (a : postarg QcNum) fuel e, sw_reach ev c s -> (q_k s <> 0%nat -> rows c L (jac (q_ros s))) -> In (q_h s, pa_h a) l -> sw_step ev c fuel s = (s1, p, Some (AAccepted a)) -> pa_trunc a = false ->
     solvable (q_ros s1) (q_h s * rc_d c)%Qc -> rc_n2 c = 0%nat \/ length p = 1%nat -> ts <= q2r (q_t s) -> q2r (q_t s) + q2r (pa_h a) <= ts + T -> 0 <= e -> near n (toR (q_x s)) (X (q2r (q_t s))) e ->
     q2r (q_t s1) = q2r (q_t s) + q2r (pa_h a) /\ rows c L (jac (q_ros s1)) /\ near n (toR (q_x s1)) (X (q2r (q_t s1))) ((1 + q2r (pa_h a) * lam) * e + C * q2r (pa_h a))) ->
  forall e, sw_reach ev c s -> (q_k s <> 0%nat -> rows c L (jac (q_ros s))) -> Forall (fun p => 0 < q2r (snd p)) l -> 0 <= e ->
  ts <= q2r (q_t s) -> q2r (q_t s) + total (map q2r (map snd l)) <= ts + T -> near n (toR (q_x s)) (X (q2r (q_t s))) e ->
  q2r (q_t s') = q2r (q_t s) + total (map q2r (map snd l)) /\ near n (toR (q_x s')) (X (q2r (q_t s'))) (exp (lam * total (map q2r (map snd l))) * (e + total (map q2r (map snd l)) * C)).
Proof.
  intros P LA CP ONE. revert ONE. induction P as [s|s h l s' P IH|s fuel s1 p a l s' E TR SOL SH P IH]; intros ONE e RE RW FL E0 T0 T1 NX.
  - cbn [map total] in *. split; [ring|]. rewrite Rmult_0_r, exp_0, Rmult_0_l. intros j Hj. rewrite Rplus_0_r, Rmult_1_l. apply NX. exact Hj.
  - apply (IH ONE e); try assumption. apply sw_size. exact RE.
  - inversion FL as [|h0 l0 Hh FL']; subst. cbn [map total snd] in *. set (h := q2r (pa_h a)) in *. set (tl := total (map q2r (map snd l))) in *.
    assert (TL0 : 0 <= tl) by (unfold tl; apply total_pos; rewrite map_map; apply Forall_map; exact FL').
    destruct (ONE s s1 p a fuel e RE RW (or_introl eq_refl) E TR SOL SH T0 ltac:(fold h; lra) E0 NX) as (ET & RW1 & LOC). fold h in ET, LOC.
    set (e1 := (1 + h * lam) * e + C * h) in *. assert (E1' : 0 <= e1) by (unfold e1; apply Rplus_le_le_0_compat; apply Rmult_le_pos; try lra; pose proof (Rmult_le_pos h lam ltac:(lra) LA); lra).
    destruct (IH (fun s s1 p a fuel e RE RW I => ONE s s1 p a fuel e RE RW (or_intror I)) e1 (sw_did ev c s fuel s1 p a RE E) (fun _ => RW1) FL' E1' ltac:(lra) ltac:(rewrite ET; lra) LOC) as (QT & QN). split; [rewrite QT, ET; ring|].
    intros j Hj. eapply Rle_trans; [apply QN; exact Hj|]. apply grow; try lra. unfold e1. lra.
Qed.
Lemma in_total l x : (forall y, In y l -> 0 <= y) -> In x l -> x <= total l.
Proof.
  induction l as [|a l IH]; intros PP I; [contradiction|]. cbn [total]. destruct I as [->|I].
  - assert (0 <= total l); [|lra]. clear IH. induction l as [|b l IH]; cbn [total]; [lra|]. pose proof (PP b ltac:(right; left; reflexivity)). assert (0 <= total l); [|lra]. apply IH. intros y [->|Y]; apply PP; [left; reflexivity|right; right; exact Y].
  - pose proof (PP a (or_introl eq_refl)). assert (x <= total l) by (apply IH; [intros y Y; apply PP; right; exact Y|exact I]). lra.
Qed.
Notation lam2 := (2 * L + 3 / 2 * L * (1 + 2 * T * L)).
Notation lam1 := (5 * L + 3 / 2 * L * (1 + 2 * T * L)).
Notation C2 := (3 / 2 * L * (2 * eta * F + K) + 3 / 2 * K * eta + 4 * eta * eta * F + 4 / 3 * M).
Notation C1 := (3 / 2 * L * (2 * eta * F + K) * T + 6 * eta * F + K + 4 / 3 * M * T).
Lemma T_pos l : Forall (fun p => 0 < q2r (fst p) <= H /\ 0 < q2r (snd p) <= H) l -> total (map q2r (map snd l)) <= T -> 0 <= T.
Proof. intros FL TT. eapply Rle_trans; [|exact TT]. apply total_pos. rewrite map_map. apply Forall_map. eapply Forall_impl; [|exact FL]. intros p (_ & Q & _). exact Q. Qed.
Lemma each_le (l : list (Qc * Qc)) (p : Qc * Qc) : Forall (fun p => 0 < q2r (fst p) <= H /\ 0 < q2r (snd p) <= H) l -> total (map q2r (map snd l)) <= T -> In p l -> q2r (snd p) <= T.
Proof.
  intros FL TT I. eapply Rle_trans; [apply in_total; [|apply in_map; apply in_map; exact I]|exact TT]. intros y Y. apply in_map_iff in Y. destruct Y as (q & <- & Y). apply in_map_iff in Y. destruct Y as (r & <- & Y). rewrite Forall_forall in FL. destruct (FL r Y) as (_ & Q & _). lra.
Qed.
Lemma consts : 0 <= T -> 0 <= lam2 /\ 0 <= lam1 /\ 0 <= C2 /\ 0 <= C1.
Proof.
  intros TP. pose proof (eta0 c L L0) as EP. pose proof (Rmult_le_pos _ _ EP F0) as EF. pose proof (Rmult_le_pos _ _ K0 EP) as KE. pose proof (Rmult_le_pos _ _ EP EF) as EEF. pose proof (Rmult_le_pos _ _ TP L0) as TL. pose proof (Rmult_le_pos _ _ L0 TL) as LTL.
  assert (LEF : 0 <= L * (2 * eta * F + K)) by (apply Rmult_le_pos; lra). pose proof (Rmult_le_pos _ _ LEF TP). pose proof (Rmult_le_pos _ _ M0 TP). repeat split; lra.
Qed.
Theorem sw_converges s l s' d : sw_reach ev c s -> q_k s = 0%nat -> sw_path ev c s l s' -> Forall (fun p => 0 < q2r (fst p) <= H /\ 0 < q2r (snd p) <= H) l -> Forall (fun p => fst p = snd p) l -> total (map q2r (map snd l)) <= T -> 0 <= H ->
  q2r (q_t s) = ts -> 0 <= d -> near n (toR (q_x s)) (X ts) d ->
  q2r (q_t s') = ts + total (map q2r (map snd l)) /\ near n (toR (q_x s')) (X (q2r (q_t s'))) (exp (lam2 * T) * (d + T * C2 * (H * H))).
Proof.
  intros RE Q0 P FL FE TT H0 ET E0 NX. rewrite <- ET in NX. pose proof (T_pos l FL TT) as TP. destruct (consts TP) as (P1 & _ & P2 & _). assert (C2H : 0 <= C2 * (H * H)) by (apply Rmult_le_pos; [exact P2|apply Rmult_le_pos; assumption]).
  destruct (sw_induction lam2 (C2 * (H * H)) s l s' P P1 C2H) with (e := d) as (QT & QN); try assumption; try lra.
  - intros s2 s1 p a fuel e RE2 RW2 I E TR SOL SH T0 T1 EP NX2. rewrite Forall_forall in FL, FE. destruct (FL _ I) as ((A1 & A2) & (A3 & A4)). pose proof (FE _ I) as A5. cbn [fst snd] in A1, A2, A3, A4, A5.
    assert (HW : Rabs (q2r (q_h s2 * rc_d c)%Qc) * (1 + INR n * L) <= / 2) by (rewrite scaled, Rabs_right by lra; eapply Rle_trans; [apply Rmult_le_compat_r; [apply eta0; exact L0|exact A2]|exact HS]).
    destruct (sw_one ev c f SAFE g X A L F K M ts (ts + T) CR L0 LIP K0 F0 M0 SO SC FB D0 CC s2 fuel s1 p a e RE2 RW2 A1 E TR SOL SH T0 A3 T1 EP NX2 HW) as (B1 & B2 & B3 & _). split; [exact B1|]. split; [exact B2|].
    intros j Hj. eapply Rle_trans; [apply (B3 T); [apply (each_le l (q_h s2, pa_h a)); [apply Forall_forall; exact FL|exact TT|exact I]|exact A5|exact Hj]|]. apply Rplus_le_compat_l. apply Rmult_le_compat_r; [lra|]. apply Rmult_le_compat_l; [exact P2|]. apply Rmult_le_compat; lra.
  - intros; contradiction.
  - eapply Forall_impl; [|exact FL]. intros p (_ & Q & _). exact Q.
  - rewrite ET in QT. split; [exact QT|]. intros j Hj. eapply Rle_trans; [apply QN; exact Hj|].
    eapply Rle_trans; [apply exp_bound; [exact P1|split; [|exact TT]|exact E0|exact C2H]|right; ring]. apply total_pos. rewrite map_map. apply Forall_map. eapply Forall_impl; [|exact FL]. intros p (_ & Q & _). exact Q.
Qed.
Theorem sw_converges_first s l s' d : sw_reach ev c s -> q_k s = 0%nat -> sw_path ev c s l s' -> Forall (fun p => 0 < q2r (fst p) <= H /\ 0 < q2r (snd p) <= H) l -> total (map q2r (map snd l)) <= T -> 0 <= H ->
  q2r (q_t s) = ts -> 0 <= d -> near n (toR (q_x s)) (X ts) d ->
  q2r (q_t s') = ts + total (map q2r (map snd l)) /\ near n (toR (q_x s')) (X (q2r (q_t s'))) (exp (lam1 * T) * (d + T * C1 * H)).
Proof.
  intros RE Q0 P FL TT H0 ET E0 NX. rewrite <- ET in NX. pose proof (T_pos l FL TT) as TP. destruct (consts TP) as (_ & P1 & _ & P2). assert (C2H : 0 <= C1 * H) by (apply Rmult_le_pos; assumption).
  destruct (sw_induction lam1 (C1 * H) s l s' P P1 C2H) with (e := d) as (QT & QN); try assumption; try lra.
  - intros s2 s1 p a fuel e RE2 RW2 I E TR SOL SH T0 T1 EP NX2. rewrite Forall_forall in FL. destruct (FL _ I) as ((A1 & A2) & (A3 & A4)). cbn [fst snd] in A1, A2, A3, A4.
    assert (HW : Rabs (q2r (q_h s2 * rc_d c)%Qc) * (1 + INR n * L) <= / 2) by (rewrite scaled, Rabs_right by lra; eapply Rle_trans; [apply Rmult_le_compat_r; [apply eta0; exact L0|exact A2]|exact HS]).
    destruct (sw_one ev c f SAFE g X A L F K M ts (ts + T) CR L0 LIP K0 F0 M0 SO SC FB D0 CC s2 fuel s1 p a e RE2 RW2 A1 E TR SOL SH T0 A3 T1 EP NX2 HW) as (B1 & B2 & _ & B3). split; [exact B1|]. split; [exact B2|].
    apply (B3 T H A2 A4 HS). apply (each_le l (q_h s2, pa_h a)); [apply Forall_forall; exact FL|exact TT|exact I].
  - intros; contradiction.
  - eapply Forall_impl; [|exact FL]. intros p (_ & Q & _). exact Q.
  - rewrite ET in QT. split; [exact QT|]. intros j Hj. eapply Rle_trans; [apply QN; exact Hj|].
    eapply Rle_trans; [apply exp_bound; [exact P1|split; [|exact TT]|exact E0|exact C2H]|right; ring]. apply total_pos. rewrite map_map. apply Forall_map. eapply Forall_impl; [|exact FL]. intros p (_ & Q & _). exact Q.
Qed.
(** * Small steps: no zero pivot *)
End Solver.
