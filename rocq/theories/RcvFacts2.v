(** RcvFacts2.v - convergence of the Rosenbrock solvers. *)
From Coq Require Import List Arith Bool Lia ZArith QArith Qcanon Reals Lra.
From Verif Require Import Base BaseFacts VecModel VOps SMap SpModel SpSpec LUSpec LUModel RkModel RkSpec StepModel RosModel RosSpec RosFacts3 RosFacts6 RosFacts7 ConvSpec ConvFacts ConvFacts3 ConvFacts5 HighFacts5 ImcSpec ImcFacts ImcFacts3 XrkFacts7 GraFacts GraFacts2 RcvFacts RcvSpec.
Import ListNotations.
Local Open Scope R_scope.

Lemma shifted_real n J hw (k : list Qc) (r : nat -> Qc) : LUSpec.solves n (shifted hw J) (vfun k) r ->
  forall i, (i < n)%nat -> q2r (cmp_ k i) = q2r (r i) + q2r hw * rsum n (fun j => q2r (J i j) * q2r (cmp_ k j)).
Proof.
  intros S i Hi. specialize (S i Hi). assert (E : qsum n (fun c => shifted hw J i c * vfun k c)%Qc = (cmp_ k i - hw * qsum n (fun c => J i c * cmp_ k c))%Qc).
  { unfold shifted. rewrite (qsum_ext n _ (fun c => delta i c * cmp_ k c - hw * (J i c * cmp_ k c))%Qc) by (intros; unfold vfun, cmp_; ring). rewrite qsum_sub, qsum_scale, delta_sum by exact Hi. reflexivity. }
  rewrite E in S. assert (Q : cmp_ k i = (r i + hw * qsum n (fun c => J i c * cmp_ k c))%Qc) by (rewrite <- S; ring). rewrite Q at 1. rewrite q2r_plus, q2r_mult, q2r_sum. f_equal. f_equal. apply rsum_ext. intros c _. apply q2r_mult.
Qed.
Lemma q2r_qc23 : q2r (qc 2 3) = 2 / 3. Proof. assert (E : (qc 2 3 * qn 3 = qn 2)%Qc) by (apply Qc_is_canon; reflexivity). apply (f_equal q2r) in E. rewrite q2r_mult, !q2r_qn in E. cbn [INR] in E. lra. Qed.
Lemma q2r_qc43 : q2r (qc 4 3) = 4 / 3. Proof. assert (E : (qc 4 3 * qn 3 = qn 4)%Qc) by (apply Qc_is_canon; reflexivity). apply (f_equal q2r) in E. rewrite q2r_mult, !q2r_qn in E. cbn [INR] in E. lra. Qed.
Lemma q2r_qc14 : q2r (qc 1 4) = / 4. Proof. assert (E : (qc 1 4 * qn 4 = qn 1)%Qc) by (apply Qc_is_canon; reflexivity). apply (f_equal q2r) in E. rewrite q2r_mult, !q2r_qn in E. cbn [INR] in E. lra. Qed.
Lemma q2r_qc34 : q2r (qc 3 4) = 3 / 4. Proof. assert (E : (qc 3 4 * qn 4 = qn 3)%Qc) by (apply Qc_is_canon; reflexivity). apply (f_equal q2r) in E. rewrite q2r_mult, !q2r_qn in E. cbn [INR] in E. lra. Qed.
Lemma jdx_pos : 0 < q2r jdx.
Proof. assert (E : (jdx * Q2Qc (inject_Z 1000000) = 1)%Qc) by (apply Qc_is_canon; reflexivity). assert (P : (0 <= jdx)%Qc) by discriminate. apply q2r_le in P. rewrite q2r_0 in P. destruct P as [P|P]; [exact P|]. apply (f_equal q2r) in E. rewrite q2r_mult, <- P, q2r_1 in E. lra. Qed.
Lemma q2r_over a b : q2r b <> 0 -> q2r (a / b)%Qc = q2r a / q2r b.
Proof.
  intros NZ. assert (NB : b <> 0%Qc) by (intros ->; apply NZ; apply q2r_0). assert (E : (a = a / b * b)%Qc) by (field; exact NB). apply (Rmult_eq_reg_r (q2r b)); [|exact NZ]. rewrite <- q2r_mult, <- E. field. exact NZ.
Qed.
Lemma rsum_const k b : rsum k (fun _ => b) = INR k * b.
Proof. induction k as [|k IH]; [cbn; ring|]. cbn [rsum]. rewrite IH, S_INR. ring. Qed.
Lemma rsum_delta m k : rsum k (fun j => Rabs (q2r (delta m j))) <= 1.
Proof.
  assert (P : forall k, rsum k (fun j => Rabs (q2r (delta m j))) = if (m <? k)%nat then 1 else 0).
  { induction k0 as [|k0 IH]; [reflexivity|]. cbn [rsum]. rewrite IH. unfold delta. destruct (Nat.eqb_spec m k0) as [->|NE].
    - rewrite Nat.ltb_irrefl. destruct (Nat.ltb_spec k0 (S k0)); [|lia]. rewrite q2r_1, Rabs_R1. ring.
    - rewrite q2r_0, Rabs_R0. destruct (Nat.ltb_spec m k0), (Nat.ltb_spec m (S k0)); try lia; ring. }
  rewrite P. destruct (m <? k)%nat; lra.
Qed.
Lemma difference_small n f g L t x f0 i k : computes_rhs n f g -> lipschitz_x n L g -> length x = n -> f t x = Ret f0 -> (i < n)%nat -> (k < n)%nat -> Rabs (q2r (difference f t x f0 i k)) <= L.
Proof.
  intros CR LIP LX EF Hi Hk. unfold difference. set (x1 := upd x k (cmp_ x k + jdx)%Qc). assert (L1 : length x1 = n) by (unfold x1; rewrite upd_length; exact LX).
  destruct (CR t x LX) as (y0 & E0 & _ & V0). rewrite EF in E0. injection E0 as <-. destruct (CR t x1 L1) as (y1 & E1 & _ & V1). rewrite E1. cbn [value]. pose proof jdx_pos as JP.
  rewrite q2r_over, q2r_minus by lra. rewrite <- !toR_cmp, V0, V1. unfold Rdiv. rewrite Rabs_mult, Rabs_inv, (Rabs_right (q2r jdx)) by lra.
  assert (N : near n (toR x1) (toR x) (q2r jdx)).
  { intros j Hj. rewrite !toR_cmp, <- q2r_minus. unfold cmp_, x1. destruct (Nat.eq_dec j k) as [->|NE].
    - rewrite nth_upd_eq by (rewrite LX; exact Hk). unfold cmp_. replace (nth k x 0 + jdx - nth k x 0)%Qc with jdx by ring. rewrite Rabs_right by lra. lra.
    - rewrite nth_upd_neq by congruence. replace (nth j x 0 - nth j x 0)%Qc with 0%Qc by ring. rewrite q2r_0, Rabs_R0. lra. }
  pose proof (LIP (q2r t) (toR x1) (toR x) (q2r jdx) ltac:(rewrite toR_length; exact L1) ltac:(rewrite toR_length; exact LX) N i Hi) as Q.
  apply (Rmult_le_reg_r (q2r jdx)); [exact JP|]. rewrite Rmult_assoc, Rinv_l by lra. lra.
Qed.

Section Solver.
Context {W : Type} (ev : events QcNum W) (c : rcfg W) (f : Qc -> list Qc -> Outcome (list Qc)).
Hypothesis SAFE : r_safe ev c f.
Notation n := (rc_n c).
Context (g : R -> list R -> list R) (X : R -> list R) (A : R -> nat -> R) (L F K M t0 t1 H : R).
Hypothesis CR : computes_rhs n f g.
Hypothesis L0 : 0 <= L.
Hypothesis LIP : lipschitz_x n L g.
Hypothesis K0 : 0 <= K.
Hypothesis F0 : 0 <= F.
Hypothesis M0 : 0 <= M.
Hypothesis SO : solves n g X t0 t1.
Hypothesis SC : slope_changes n g X t0 t1 K.
Hypothesis FB : forall t j, t0 <= t <= t1 -> (j < n)%nat -> Rabs (cmpR (g t (X t)) j) <= F.
Hypothesis D0 : rc_d c <> 0%Qc.
Notation beta := (1 + INR n * L).
Notation eta := (stiffness c L).
Hypothesis HS : H * eta <= / 2.
Lemma beta0 : 0 <= beta. Proof. pose proof (Rmult_le_pos (INR n) L (pos_INR n) L0). lra. Qed.
Lemma eta0 : 0 <= eta. Proof. apply Rmult_le_pos; [apply Rabs_pos|apply beta0]. Qed.
Definition rows (J : nat -> nat -> Qc) : Prop := forall i, (i < n)%nat -> rsum n (fun k => Rabs (q2r (J i k))) <= beta.
Lemma step_rows s f0 J : length (q_x s) = n -> f (q_t s) (q_x s) = Ret f0 -> (q_k s <> 0%nat -> rows (jac (q_ros s))) -> step_jac c f s f0 J -> rows J.
Proof.
  intros LX EF P (S0 & S1) i Hi. destruct (Nat.eq_dec (q_k s) 0) as [Z|NZ].
  - specialize (S0 Z). pose proof (Rmult_le_pos (INR n) L (pos_INR n) L0) as NL. destruct (Nat.ltb_spec i (rc_n2 c)) as [Q|Q].
    + eapply Rle_trans; [|assert (1 <= beta) by lra; eassumption]. rewrite (rsum_ext n _ (fun k => Rabs (q2r (delta (rc_n2 c + i) k)))); [apply rsum_delta|]. intros k Hk. rewrite S0 by assumption. apply Nat.ltb_lt in Q. rewrite Q. reflexivity.
    + eapply Rle_trans; [apply (rsum_le n _ (fun _ => L))|rewrite rsum_const; lra]. intros k Hk. rewrite S0 by assumption. destruct (Nat.ltb_spec i (rc_n2 c)); [lia|]. destruct (k <? rc_n2 c + rc_n1 c)%nat; [|rewrite q2r_0, Rabs_R0; exact L0].
      apply (difference_small n f g L _ _ f0 i k CR LIP LX EF Hi Hk).
  - rewrite (rsum_ext n _ (fun k => Rabs (q2r (jac (q_ros s) i k)))) by (intros k _; rewrite (S1 NZ); reflexivity). apply P; assumption.
Qed.
Lemma scaled h : Rabs (q2r (h * rc_d c)%Qc) * beta = Rabs (q2r h) * eta.
Proof. unfold stiffness. rewrite q2r_mult, Rabs_mult. ring. Qed.
Lemma nonzero h : 0 < q2r h -> (h * rc_d c)%Qc <> 0%Qc.
Proof. intros P E. apply Qcmult_integral in E. destruct E as [->|E]; [rewrite q2r_0 in P; lra|contradiction]. Qed.
Lemma w1_path_reach s l s' : w1_path ev c s l s' -> w1_reach ev c s -> w1_reach ev c s'.
Proof.
  induction 1 as [s|s h l s' _ IH|s s1 a l s' E _ _ _ IH]; intros RE; [exact RE|apply IH; apply w1_size; exact RE|apply IH; exact (w1_did ev c s s1 a RE E)].
Qed.
Lemma sw_path_reach s l s' : sw_path ev c s l s' -> sw_reach ev c s -> sw_reach ev c s'.
Proof.
  induction 1 as [s|s h l s' _ IH|s fuel s1 p a l s' E _ _ _ _ IH]; intros RE; [exact RE|apply IH; apply sw_size; exact RE|apply IH; exact (sw_did ev c s fuel s1 p a RE E)].
Qed.
Lemma grow lam h tl e C v : 0 <= lam -> 0 <= h -> 0 <= tl -> 0 <= e -> 0 <= C -> v <= (1 + h * lam) * e + C * h -> exp (lam * tl) * (v + tl * C) <= exp (lam * (h + tl)) * (e + (h + tl) * C).
Proof.
  intros LA Hh Ht He HC Hv. rewrite Rmult_plus_distr_l with (r2 := h) (r3 := tl), exp_plus. rewrite (Rmult_comm (exp (lam * h))), Rmult_assoc. apply Rmult_le_compat_l; [left; apply exp_pos|].
  assert (P1 : 1 + h * lam <= exp (lam * h)) by (pose proof (exp_ineq1_le (lam * h)); lra). assert (P2 : 1 <= exp (lam * h)) by (pose proof (Rmult_le_pos h lam Hh LA); lra).
  assert (Q1 : (1 + h * lam) * e <= exp (lam * h) * e) by (apply Rmult_le_compat_r; assumption). assert (Q2 : 1 * ((h + tl) * C) <= exp (lam * h) * ((h + tl) * C)) by (apply Rmult_le_compat_r; [apply Rmult_le_pos; lra|exact P2]). lra.
Qed.
Lemma total_pos l : Forall (fun h => 0 < h) l -> 0 <= total l.
Proof. induction 1; cbn [total]; lra. Qed.
Lemma w1_error s l s' : w1_path ev c s l s' -> forall e, w1_reach ev c s -> (q_k s <> 0%nat -> rows (jac (q_ros s))) -> Forall (fun h => 0 < q2r h <= H) l -> 0 <= e ->
  t0 <= q2r (q_t s) -> q2r (q_t s) + total (map q2r l) <= t1 -> near n (toR (q_x s)) (X (q2r (q_t s))) e ->
  q2r (q_t s') = q2r (q_t s) + total (map q2r l) /\ near n (toR (q_x s')) (X (q2r (q_t s'))) (exp (2 * L * total (map q2r l)) * (e + total (map q2r l) * ((K + 2 * eta * F) * H))).
Proof.
  induction 1 as [s|s h l s' P IH|s s1 a l s' E TR SOL P IH]; intros e RE RW FL E0 T0 T1 NX.
  - cbn [map total] in *. split; [ring|]. rewrite Rmult_0_r, exp_0, Rmult_0_l. intros j Hj. rewrite Rplus_0_r, Rmult_1_l. apply NX. exact Hj.
  - apply (IH e); try assumption. apply w1_size. exact RE.
  - inversion FL as [|h0 l0 Hh FL']; subst. cbn [map total] in *. set (h := q2r (q_h s)) in *. set (tl := total (map q2r l)) in *.
    assert (TL0 : 0 <= tl) by (unfold tl; apply total_pos; apply Forall_map; eapply Forall_impl; [|exact FL']; intros y (Y & _); exact Y).
    destruct (w1_step_ok ev c f SAFE s s1 a RE E TR (nonzero _ (proj1 Hh)) SOL) as (f0 & k1 & EF & SJ & ET & EH & (LK & LN & SV & NV)).
    pose proof (w1_reach_inv ev c f SAFE s RE) as (LX & _). pose proof (step_rows s f0 (jac (q_ros s1)) LX EF RW SJ) as RW1.
    destruct (CR (q_t s) (q_x s) LX) as (y0 & E1 & _ & V0). rewrite EF in E1. injection E1 as <-.
    assert (EK : forall i, (i < n)%nat -> cmpR (toR k1) i = cmpR (g (q2r (q_t s)) (toR (q_x s))) i + q2r (q_h s * rc_d c)%Qc * rsum n (fun k => q2r (jac (q_ros s1) i k) * cmpR (toR k1) k)).
    { intros i Hi. rewrite toR_cmp, (shifted_real n _ _ k1 _ SV i Hi). rewrite <- V0, toR_cmp. unfold vfun. fold (cmp_ f0 i). f_equal. f_equal. apply rsum_ext. intros k _. rewrite toR_cmp. reflexivity. }
    assert (EN : forall j, (j < n)%nat -> cmpR (toR (q_x s1)) j = cmpR (toR (q_x s)) j + h * cmpR (toR k1) j) by (intros j Hj; rewrite !toR_cmp, (NV j Hj), q2r_plus, q2r_mult; reflexivity).
    assert (HW : Rabs (q2r (q_h s * rc_d c)%Qc) * beta = h * eta) by (rewrite scaled; fold h; rewrite (Rabs_right h) by lra; reflexivity). pose proof eta0 as EP.
    assert (HW2 : Rabs (q2r (q_h s * rc_d c)%Qc) * beta <= / 2) by (rewrite HW; eapply Rle_trans; [apply Rmult_le_compat_r; [exact EP|apply Hh]|exact HS]).
    pose proof (w1_local n g X t0 t1 K F L beta (fun i k => q2r (jac (q_ros s1) i k)) SO K0 F0 L0 SC FB LIP RW1 (q2r (q_t s)) h e (toR (q_x s)) (toR k1) (q2r (q_h s * rc_d c)%Qc) T0 ltac:(lra) ltac:(lra) E0
      ltac:(rewrite toR_length; exact LX) NX HW2 EK eta (toR (q_x s1)) HW EN) as LOC.
    assert (ET' : q2r (q_t s1) = q2r (q_t s) + h) by (rewrite ET, q2r_plus; reflexivity). rewrite <- ET' in LOC.
    set (e1 := (1 + h * (2 * L)) * e + (K + 2 * eta * F) * (h * h)) in *. assert (CP : 0 <= K + 2 * eta * F) by (pose proof (Rmult_le_pos eta F EP F0); lra).
    assert (E1' : 0 <= e1). { unfold e1. apply Rplus_le_le_0_compat; [apply Rmult_le_pos; [pose proof (Rmult_le_pos h L ltac:(lra) L0); lra|exact E0]|apply Rmult_le_pos; [exact CP|apply Rmult_le_pos; lra]]. }
    destruct (IH e1 (w1_did ev c s s1 a RE E) (fun _ => RW1) FL' E1' ltac:(lra) ltac:(rewrite ET'; lra) LOC) as (QT & QN). split; [rewrite QT, ET'; ring|].
    intros j Hj. eapply Rle_trans; [apply QN; exact Hj|]. apply grow; try lra; [apply Rmult_le_pos; lra|]. unfold e1. apply Rplus_le_compat_l. replace ((K + 2 * eta * F) * H * h) with ((K + 2 * eta * F) * (H * h)) by ring. apply Rmult_le_compat_l; [exact CP|]. apply Rmult_le_compat_r; lra.
Qed.
Hypothesis CC : curvature_changes n g X A t0 t1 M.
Lemma sw_one s fuel s1 p a e : sw_reach ev c s -> (q_k s <> 0%nat -> rows (jac (q_ros s))) -> 0 < q2r (q_h s) -> sw_step ev c fuel s = (s1, p, Some (AAccepted a)) -> pa_trunc a = false ->
  solvable (q_ros s1) (q_h s * rc_d c)%Qc -> rc_n2 c = 0%nat \/ length p = 1%nat -> t0 <= q2r (q_t s) -> 0 < q2r (pa_h a) -> q2r (q_t s) + q2r (pa_h a) <= t1 -> 0 <= e ->
  near n (toR (q_x s)) (X (q2r (q_t s))) e -> Rabs (q2r (q_h s * rc_d c)%Qc) * beta <= / 2 ->
  q2r (q_t s1) = q2r (q_t s) + q2r (pa_h a) /\ rows (jac (q_ros s1)) /\
  (forall T, q2r (pa_h a) <= T -> q_h s = pa_h a -> near n (toR (q_x s1)) (X (q2r (q_t s1))) ((1 + q2r (pa_h a) * (2 * L + 3 / 2 * L * (1 + 2 * T * L))) * e +
     (3 / 2 * L * (2 * eta * F + K) + 3 / 2 * K * eta + 4 * eta * eta * F + 4 / 3 * M) * (q2r (pa_h a) * q2r (pa_h a)) * q2r (pa_h a))) /\
  (forall T H, q2r (q_h s) <= H -> q2r (pa_h a) <= H -> H * eta <= / 2 -> q2r (pa_h a) <= T -> near n (toR (q_x s1)) (X (q2r (q_t s1)))
     ((1 + q2r (pa_h a) * (5 * L + 3 / 2 * L * (1 + 2 * T * L))) * e + (3 / 2 * L * (2 * eta * F + K) * T + 6 * eta * F + K + 4 / 3 * M * T) * H * q2r (pa_h a))).
Proof.
  intros RE RW HP E TR SOL SH T0 AP T1 E0 NX HW. destruct (sw_step_ok ev c f SAFE s fuel s1 p a RE E TR (nonzero _ HP) SOL SH) as (f0 & k1 & k2 & EF & SJ & ET & _ & (LK1 & LK2 & LN & SV & (y & f2 & LY & EY & EF2 & SV2) & NV) & _).
  pose proof (sw_reach_inv ev c f SAFE s RE) as (LX & _). pose proof (step_rows s f0 (jac (q_ros s1)) LX EF RW SJ) as RW1. set (h := q2r (pa_h a)) in *.
  assert (ET' : q2r (q_t s1) = q2r (q_t s) + h) by (rewrite ET, q2r_plus; reflexivity). split; [exact ET'|]. split; [exact RW1|]. rewrite ET'.
  destruct (CR (q_t s) (q_x s) LX) as (y0 & E1 & _ & V0). rewrite EF in E1. injection E1 as <-. destruct (CR (q_t s + qc 2 3 * pa_h a)%Qc y LY) as (y2 & E2 & _ & V2). rewrite EF2 in E2. injection E2 as <-.
  rewrite q2r_plus, q2r_mult, q2r_qc23 in V2. fold h in V2. set (JR := fun i k => q2r (jac (q_ros s1) i k)).
  assert (EK : forall i, (i < n)%nat -> cmpR (toR k1) i = cmpR (g (q2r (q_t s)) (toR (q_x s))) i + q2r (q_h s * rc_d c)%Qc * rsum n (fun k => JR i k * cmpR (toR k1) k)).
  { intros i Hi. rewrite toR_cmp, (shifted_real n _ _ k1 _ SV i Hi). rewrite <- V0, toR_cmp. unfold vfun. fold (cmp_ f0 i). f_equal. f_equal. apply rsum_ext. intros k _. rewrite toR_cmp. reflexivity. }
  assert (EYR : forall j, (j < n)%nat -> cmpR (toR y) j = cmpR (toR (q_x s)) j + 2 / 3 * h * cmpR (toR k1) j) by (intros j Hj; rewrite !toR_cmp, (EY j Hj), q2r_plus, !q2r_mult, q2r_qc23; reflexivity).
  assert (EK2 : forall i, (i < n)%nat -> cmpR (toR k2) i = cmpR (g (q2r (q_t s) + 2 / 3 * h) (toR y)) i - 4 / 3 * q2r (pa_h a * rc_d c)%Qc * rsum n (fun k => JR i k * cmpR (toR k1) k) + q2r (q_h s * rc_d c)%Qc * rsum n (fun k => JR i k * cmpR (toR k2) k)).
  { intros i Hi. rewrite toR_cmp, (shifted_real n _ _ k2 _ SV2 i Hi). rewrite <- V2, toR_cmp. rewrite q2r_minus, (q2r_mult (qc 4 3 * (pa_h a * rc_d c))%Qc), (q2r_mult (qc 4 3)), q2r_qc43. unfold matvec. rewrite q2r_sum. f_equal.
    - f_equal. f_equal. apply rsum_ext. intros k _. rewrite toR_cmp, q2r_mult. reflexivity.
    - f_equal. apply rsum_ext. intros k _. rewrite toR_cmp. reflexivity. }
  assert (EN : forall j, (j < n)%nat -> cmpR (toR (q_x s1)) j = cmpR (toR (q_x s)) j + h * (/ 4 * cmpR (toR k1) j + 3 / 4 * cmpR (toR k2) j)) by (intros j Hj; rewrite !toR_cmp, (NV j Hj), q2r_plus, q2r_mult, q2r_plus, !q2r_mult, q2r_qc14, q2r_qc34; reflexivity).
  split.
  - intros T HT EH. assert (EE : Rabs (q2r (q_h s * rc_d c)%Qc) * beta = h * eta) by (rewrite EH, scaled; fold h; rewrite (Rabs_right h) by lra; reflexivity).
    exact (sw_second n g X t0 t1 K F L beta JR SO K0 F0 L0 beta0 SC FB LIP RW1 (q2r (q_t s)) h e (toR (q_x s)) (toR k1) (q2r (q_h s * rc_d c)%Qc) T0 AP T1 E0 ltac:(rewrite toR_length; exact LX) NX HW EK A M M0 CC
      (toR y) (toR k2) (toR (q_x s1)) (q2r (pa_h a * rc_d c)%Qc) ltac:(rewrite toR_length; exact LY) EYR EK2 EN eta T ltac:(rewrite EH; reflexivity) EE HT).
  - intros T H' H1 H2 H3 HT. assert (EEw : Rabs (q2r (q_h s * rc_d c)%Qc) * beta <= H' * eta) by (rewrite scaled, Rabs_right by lra; apply Rmult_le_compat_r; [apply eta0|exact H1]).
    assert (EEd : Rabs (q2r (pa_h a * rc_d c)%Qc) * beta <= H' * eta) by (rewrite scaled; fold h; rewrite Rabs_right by lra; apply Rmult_le_compat_r; [apply eta0|exact H2]).
    exact (sw_first_order n g X t0 t1 K F L beta JR SO K0 F0 L0 beta0 SC FB LIP RW1 (q2r (q_t s)) h e (toR (q_x s)) (toR k1) (q2r (q_h s * rc_d c)%Qc) T0 AP T1 E0 ltac:(rewrite toR_length; exact LX) NX HW EK A M M0 CC
      (toR y) (toR k2) (toR (q_x s1)) (q2r (pa_h a * rc_d c)%Qc) ltac:(rewrite toR_length; exact LY) EYR EK2 EN eta T H' eta0 EEw EEd H3 H2 HT).
Qed.
End Solver.
