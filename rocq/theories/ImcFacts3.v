(** ImcFacts3.v - runs of the implicit alpha solver as runs of the alpha method over the real numbers. *)
From Coq Require Import List Arith Bool ZArith QArith Qcanon Lia Permutation Reals Lra Psatz.
From Verif Require Import Base BaseFacts VecModel VOps MapModel NewtModel NewtSpec NewtFacts NewtFacts2 NewtFacts4 RkModel RkSpec StepSpec ExtModel ExtFacts5 ImpModel ImpSpec ImpFacts ImpFacts3 ImpFacts4
  ConvSpec ConvFacts3 ConvFacts4 ConvFacts5 HighFacts5 ImcSpec ImcFacts ImcFacts2.
Import ListNotations.
Local Open Scope R_scope.

Lemma run_keeps_tol {S} (dd : ddir QcNum S) lit mt g limit p p' log st : ls_order lit -> p_valid p = false -> e_cur (p_est p) = p_x p ->
  nrun (plain_comps dd lit mt g) limit p = Ret (p', log, st) -> e_absTol (p_est p') = e_absTol (p_est p).
Proof.
  intros LO V C E. set (tol := e_absTol (p_est p)).
  pose (Inv := fun q : perf QcNum (S:=S) => pf_ok g q /\ e_absTol (p_est q) = tol).
  destruct (run_inv (plain_comps dd lit mt g) Inv (fun _ => True)) with (limit := limit) (s := p) (s' := p') (log := log) (st := st) as [[_ H] _]; try exact E; [| | | | | | |exact H].
  - intros n s s' e [I1 I2] X. cbn [plain_comps c_iter] in X.
    destruct (pf_iteration_ok dd lit mt g LO qc_zero_step n s s' e I1 X) as [OK [_ [f [d [t [G1 [G2 [G3 [G4 [G5 [G6 [G7 G8]]]]]]]]]]]].
    destruct (est_keeps _ _ _ _ G7) as [K1 _]. split; [split; [exact OK|congruence]|auto].
  - intros n s s' b X. inversion X; subst. tauto.
  - intros s s' b X. inversion X; subst. tauto.
  - intros b s. unfold Inv, pf_ok. simpl. tauto.
  - intros x s s' [I1 I2] X. inversion X; subst. split; [split; [discriminate|reflexivity]|exact I2].
  - intros s s' [[I1 I3] I2] X. inversion X; subst. split; [split; [exact I1|reflexivity]|exact I2].
  - split; [split; [congruence|assumption]|reflexivity].
Qed.
Lemma q2r_Rabs a : q2r (Qcabs a) = Rabs (q2r a).
Proof.
  destruct (Qclt_le_dec a 0) as [H|H].
  - rewrite Qcabs_neg by (apply Qclt_le_weak; assumption). rewrite q2r_opp. rewrite Rabs_left1; [reflexivity|]. rewrite <- q2r_0. apply q2r_le, Qclt_le_weak. assumption.
  - rewrite Qcabs_pos by assumption. rewrite Rabs_right; [reflexivity|]. apply Rle_ge. rewrite <- q2r_0. apply q2r_le. assumption.
Qed.
Lemma toR_length x : length (toR x) = length x. Proof. apply map_length. Qed.
Lemma toR_cmp x j : cmpR (toR x) j = q2r (cmp_ x j).
Proof. unfold cmpR, toR, cmp_. rewrite <- (map_nth q2r). rewrite q2r_0. reflexivity. Qed.

Section Run.
Context {W P D : Type} (dd : vmapping QcNum -> ddir QcNum D) (lit : ls_lit QcNum) (mt limit : nat) (c : icfg QcNum W P) (g : R -> list R -> list R).
Hypothesis LO : ls_order lit.
Hypothesis CR : forall w, computes_rhs (n_vars c) (ic_rhs c w) g.
Hypothesis PF : positions_first (ic_nd c) (ic_nf c) g.
Hypothesis PM : forall o, ic_ord c = Some o -> Permutation (fst o) (seq 0 (ic_nd c + ic_nf c)) /\ Permutation (snd o) (seq 0 (ic_nd c + ic_nf c)).
Notation nw := (plain_newton dd lit mt limit).
Notation st := (ist QcNum W P (perf QcNum (S:=D))).
Lemma step_real (s s' : st) a : length (em_x (i_map s) : list Qc) = n_vars c -> 0 <= tolerance s -> i_step no_events nw c s = (s', IDone a) ->
  astep (n_vars c) g (q2r (em_alpha (i_map s))) (q2r (ic_h c)) (tolerance s) (q2r (em_t (i_map s))) (toR (em_x (i_map s))) (toR (em_x (i_map s'))) /\
  length (em_x (i_map s') : list Qc) = n_vars c /\ em_t (i_map s') = (em_t (i_map s) + ic_h c)%Qc /\ em_alpha (i_map s') = em_alpha (i_map s) /\ tolerance s' = tolerance s.
Proof.
  intros L0 TP E.
  assert (GR : forall w, good_rhs (N:=QcNum) (n_vars c) (ic_rhs c w)). { intros w t x Lx. destruct (CR w t x Lx) as (y & E1 & L1 & _). exists y. split; assumption. }
  destruct (residual no_events dd lit mt limit c LO GR PM s s' a L0 E) as (w & X1 & F0 & F1 & w4 & er & E0 & E1 & LX & POS & VEL & EE & ET & EX).
  pose proof (step_inv no_events nw c s s' _ E) as (xp & pr1 & w1 & e0 & e1 & n2 & w2 & w3 & n3 & e2 & X2 & w5 & er2 & _ & _ & _ & EG & _ & _ & ER & _ & _ & EE2 & SS & _).
  cbn [no_events ev_end] in EE, EE2. inversion EE; subst w4 er. inversion EE2; subst w5 er2. cbn [ev_t ev_x ev_trunc] in ET, EX, SS.
  destruct (CR w (em_t (i_map s)) (em_x (i_map s)) L0) as (y0 & Q0 & LF0 & R0). change (nT QcNum) with Qc in *. rewrite E0 in Q0. inversion Q0; subst y0. clear Q0.
  destruct (CR w (em_t (i_map s) + ic_h c)%Qc X1 LX) as (y1 & Q1 & LF1 & R1). change (nT QcNum) with Qc in *. rewrite E1 in Q1. inversion Q1; subst y1. clear Q1.
  rewrite q2r_plus in R1. rewrite EX, ET. split.
  - split; [rewrite toR_length; exact L0|]. split; [rewrite toR_length; exact LX|]. intros j Hj.
    destruct (Nat.lt_ge_cases j (ic_nd c)) as [LT|GE].
    + rewrite (PF _ (toR (em_x (i_map s)))) by (rewrite ?toR_length; assumption). rewrite (PF _ (toR X1)) by (rewrite ?toR_length; assumption).
      rewrite !toR_cmp. rewrite (POS j LT). rewrite !q2r_plus, !q2r_mult, !q2r_plus, !q2r_mult, q2r_minus, q2r_1.
      match goal with |- Rabs ?e <= _ => replace e with 0 by ring end. rewrite Rabs_R0. exact TP.
    + pose proof (VEL (j - ic_nd c)%nat ltac:(unfold n_vars in Hj; lia)) as V. replace (ic_nd c + (j - ic_nd c))%nat with j in V by lia.
      apply q2r_le in V. rewrite q2r_Rabs, !q2r_minus, !q2r_mult, !q2r_plus, !q2r_mult, q2r_minus, q2r_1 in V. rewrite <- R0, <- R1, !toR_cmp. exact V.
  - split; [exact LX|]. split; [reflexivity|]. rewrite SS. split; [reflexivity|]. unfold tolerance. cbn [i_nw]. f_equal.
    cbn [plain_newton nw_guess nw_run] in EG, ER. inversion EG; subst n2. clear EG.
    match type of ER with (r <- nrun ?cc ?ll ?pp ;; _) = _ => destruct (nrun cc ll pp) as [[[p' log] stt]| |] eqn:RUN; try discriminate ER end. cbn [obind] in ER. inversion ER; subst p' stt. clear ER.
    match type of RUN with nrun _ _ ?pp = _ => exact (run_keeps_tol _ lit mt _ limit pp n3 log _ LO eq_refl eq_refl RUN) end.
Qed.
Lemma steps_real : forall count (s s' : st), length (em_x (i_map s) : list Qc) = n_vars c -> 0 <= tolerance s -> i_steps no_events nw c count s = Some s' ->
  exists z : nat -> list R, z 0%nat = toR (em_x (i_map s)) /\ z count = toR (em_x (i_map s')) /\ q2r (em_t (i_map s')) = q2r (em_t (i_map s)) + INR count * q2r (ic_h c) /\
    apath (n_vars c) g (q2r (em_alpha (i_map s))) (q2r (ic_h c)) (tolerance s) (q2r (em_t (i_map s))) z count.
Proof.
  induction count as [|k IH]; intros s s' L0 TP E.
  - cbn [i_steps] in E. inversion E; subst s'. exists (fun _ => toR (em_x (i_map s))). split; [reflexivity|]. split; [reflexivity|]. split; [simpl; ring|]. intros i Hi; lia.
  - cbn [i_steps] in E. destruct (i_step no_events nw c s) as [s1 r] eqn:E1. destruct r as [a| | |]; try discriminate E.
    destruct (step_real s s1 a L0 TP E1) as (A & L1 & T1 & AL & TE). destruct (IH s1 s' L1 ltac:(rewrite TE; exact TP) E) as (z & Z0 & ZK & TK & PK).
    exists (fun i => match i with O => toR (em_x (i_map s)) | S i => z i end). split; [reflexivity|]. split; [exact ZK|].
    split; [rewrite TK, T1, q2r_plus, S_INR; ring|]. intros i Hi. destruct i as [|i].
    + simpl INR. rewrite Rmult_0_l, Rplus_0_r. rewrite Z0. exact A.
    + pose proof (PK i ltac:(lia)) as Q. rewrite AL, TE, T1, q2r_plus in Q. rewrite S_INR. replace (q2r (em_t (i_map s)) + (INR i + 1) * q2r (ic_h c)) with (q2r (em_t (i_map s)) + q2r (ic_h c) + INR i * q2r (ic_h c)) by ring. exact Q.
Qed.
(** from setInitialState *)
Lemma set_run count t x soft (s s' : st) : length x = n_vars c -> 0 <= tolerance s -> i_steps no_events nw c count (i_set t x soft s) = Some s' ->
  exists z : nat -> list R, z 0%nat = toR x /\ z count = toR (em_x (i_map s')) /\ q2r (em_t (i_map s')) = q2r t + INR count * q2r (ic_h c) /\
    apath (n_vars c) g (q2r (em_alpha (i_map s))) (q2r (ic_h c)) (tolerance s) (q2r t) z count.
Proof. intros Lx TP E. exact (steps_real count (i_set t x soft s) s' Lx TP E). Qed.
End Run.

Lemma exact_path n g X t0 T h eps al count : 0 < h -> INR count * h <= T ->
  (forall t, t0 <= t -> t + h <= t0 + T -> astep n g al h eps t (X t) (X (t + h))) -> apath n g al h eps t0 (fun i => X (t0 + INR i * h)) count.
Proof.
  intros Hh HC H i Hi. rewrite S_INR. replace (t0 + (INR i + 1) * h) with (t0 + INR i * h + h) by ring. pose proof (pos_INR i) as P. apply H.
  - assert (0 <= INR i * h) by (apply Rmult_le_pos; lra). lra.
  - assert (INR (S i) <= INR count) by (apply le_INR; lia). rewrite S_INR in H0. assert ((INR i + 1) * h <= INR count * h) by (apply Rmult_le_compat_r; lra). lra.
Qed.
Lemma sub_solves n g X t0 T t h : solves n g X t0 (t0 + T) -> t0 <= t -> t + h <= t0 + T -> solves n g X t (t + h).
Proof. intros SO H1 H2 u Hu. apply SO. lra. Qed.
Lemma lip_final n h L T eps r d k z y : 0 < h -> 0 <= L -> INR k * h <= T -> 0 <= d -> 0 <= eps -> 0 <= r ->
  near n z y (exp (INR k * (2 * L * h)) * (d + INR k * (2 * (eps + r * h)))) -> near n z y (exp (2 * L * T) * (d + 2 * T * (r + eps / h))).
Proof.
  intros Hh HL HK Hd He Hr N j Hj. eapply Rle_trans; [apply N; assumption|]. pose proof (pos_INR k) as P.
  assert (K2 : INR k * (2 * (eps + r * h)) <= 2 * T * (r + eps / h)).
  { replace (INR k * (2 * (eps + r * h))) with ((INR k * h) * (2 * (r + eps / h))) by (field; lra).
    replace (2 * T * (r + eps / h)) with (T * (2 * (r + eps / h))) by ring. apply Rmult_le_compat_r; [|assumption]. assert (0 <= eps / h) by (apply Rmult_le_pos; [assumption|left; apply Rinv_0_lt_compat; assumption]). lra. }
  assert (K1 : exp (INR k * (2 * L * h)) <= exp (2 * L * T)).
  { replace (INR k * (2 * L * h)) with (2 * L * (INR k * h)) by ring. assert (2 * L * (INR k * h) <= 2 * L * T) by (apply Rmult_le_compat_l; lra).
    destruct H as [H|H]; [left; apply exp_increasing; assumption|right; rewrite H; reflexivity]. }
  apply Rmult_le_compat; [left; apply exp_pos| |assumption|lra]. assert (0 <= r * h) by (apply Rmult_le_pos; lra). assert (0 <= INR k * (2 * (eps + r * h))) by (apply Rmult_le_pos; lra). lra.
Qed.

Section Final.
Context {W P D : Type} (dd : vmapping QcNum -> ddir QcNum D) (lit : ls_lit QcNum) (mt limit : nat) (c : icfg QcNum W P) (g : R -> list R -> list R) (X : R -> list R) (T M : R).
Hypothesis LO : ls_order lit.
Hypothesis CR : forall w, computes_rhs (n_vars c) (ic_rhs c w) g.
Hypothesis PF : positions_first (ic_nd c) (ic_nf c) g.
Hypothesis PM : forall o, ic_ord c = Some o -> Permutation (fst o) (seq 0 (ic_nd c + ic_nf c)) /\ Permutation (snd o) (seq 0 (ic_nd c + ic_nf c)).
Notation nw := (plain_newton dd lit mt limit).
Notation st := (ist QcNum W P (perf QcNum (S:=D))).
Notation n := (n_vars c).
Notation h := (q2r (ic_h c)).
Lemma implicit_error (L d : R) count t0 x0 soft (s s' : st) : 0 <= L -> lipschitz_x n L g -> 0 <= M -> solves n g X (q2r t0) (q2r t0 + T) -> slope_changes n g X (q2r t0) (q2r t0 + T) M ->
  0 < h -> INR count * h <= T -> 0 <= q2r (em_alpha (i_map s)) <= 1 -> 2 * (h * q2r (em_alpha (i_map s)) * L) <= 1 -> 0 <= tolerance s ->
  length x0 = n -> 0 <= d -> near n (toR x0) (X (q2r t0)) d -> i_steps no_events nw c count (i_set t0 x0 soft s) = Some s' ->
  q2r (em_t (i_map s')) = q2r t0 + INR count * h /\
  near n (toR (em_x (i_map s'))) (X (q2r (em_t (i_map s')))) (exp (2 * L * T) * (d + 2 * T * (M * h + tolerance s / h))).
Proof.
  intros HL LIP HM SO SC Hh HC Ha Hs TP Lx Hd N E. destruct (set_run dd lit mt limit c g LO CR PF PM count t0 x0 soft s s' Lx TP E) as (z & Z0 & ZK & TK & PZ).
  split; [exact TK|]. rewrite TK, <- ZK. assert (PY : apath n g (q2r (em_alpha (i_map s))) h (M * h * h) (q2r t0) (fun i => X (q2r t0 + INR i * h)) count).
  { apply (exact_path n g X (q2r t0) T); [assumption|assumption|]. intros t T1 T2. apply euler_residual; [assumption|assumption|assumption|apply (sub_solves n g X (q2r t0) T); assumption|].
    intros u v j Hu Hv Hj. apply SC; [lra|lra|assumption]. }
  pose proof (lipschitz_run n g L (q2r (em_alpha (i_map s))) h (tolerance s) (M * h * h) (q2r t0) z _ count d HL LIP ltac:(lra) Ha Hs TP ltac:(apply Rmult_le_pos; [apply Rmult_le_pos|]; lra) Hd PZ PY) as R.
  cbv beta in R. change (INR 0) with 0 in R. rewrite Rmult_0_l, Rplus_0_r, Z0 in R. apply (lip_final n h L T (tolerance s) (M * h) d count); try assumption; [apply Rmult_le_pos; lra|]. exact (R N).
Qed.
Lemma trapezoid_error (L d : R) A count t0 x0 soft (s s' : st) : 0 <= L -> lipschitz_x n L g -> 0 <= M -> solves n g X (q2r t0) (q2r t0 + T) -> curvature_changes n g X A (q2r t0) (q2r t0 + T) M ->
  0 < h -> INR count * h <= T -> em_alpha (i_map s) = (1 / qn 2)%Qc -> h * L <= 1 -> 0 <= tolerance s ->
  length x0 = n -> 0 <= d -> near n (toR x0) (X (q2r t0)) d -> i_steps no_events nw c count (i_set t0 x0 soft s) = Some s' ->
  q2r (em_t (i_map s')) = q2r t0 + INR count * h /\
  near n (toR (em_x (i_map s'))) (X (q2r (em_t (i_map s')))) (exp (2 * L * T) * (d + 2 * T * (M * h ^ 2 + tolerance s / h))).
Proof.
  intros HL LIP HM SO CC Hh HC Ha Hs TP Lx Hd N E. destruct (set_run dd lit mt limit c g LO CR PF PM count t0 x0 soft s s' Lx TP E) as (z & Z0 & ZK & TK & PZ).
  assert (HA : q2r (em_alpha (i_map s)) = / 2).
  { rewrite Ha. apply Rmult_eq_reg_r with 2; [|lra]. rewrite Rinv_l by lra. transitivity (q2r (1 / qn 2 * qn 2)%Qc); [rewrite q2r_mult, q2r_qn; simpl; ring|]. rewrite <- q2r_1. f_equal. apply Qc_is_canon; reflexivity. }
  rewrite HA in PZ. split; [exact TK|]. rewrite TK, <- ZK. assert (PY : apath n g (/ 2) h (M * h * h * h) (q2r t0) (fun i => X (q2r t0 + INR i * h)) count).
  { apply (exact_path n g X (q2r t0) T); [assumption|assumption|]. intros t T1 T2. apply trapezoid_residual with (A := A); [assumption|assumption|apply (sub_solves n g X (q2r t0) T); assumption|].
    destruct CC as [C1 C2]. split; [intros u j Hu Hj; apply C1; [lra|assumption]|]. intros u v j Hu Hv Hj. apply C2; [lra|lra|assumption]. }
  assert (0 <= M * h * h) by (apply Rmult_le_pos; [apply Rmult_le_pos|]; lra).
  pose proof (lipschitz_run n g L (/ 2) h (tolerance s) (M * h * h * h) (q2r t0) z _ count d HL LIP ltac:(lra) ltac:(lra) ltac:(lra) TP ltac:(apply Rmult_le_pos; lra) Hd PZ PY) as R.
  cbv beta in R. change (INR 0) with 0 in R. rewrite Rmult_0_l, Rplus_0_r, Z0 in R. replace (M * h ^ 2) with (M * h * h) by ring. apply (lip_final n h L T (tolerance s) (M * h * h) d count); try assumption. exact (R N).
Qed.
Lemma stiff_error count t0 x0 soft (s s' : st) : one_sided n 0 g -> 0 <= M -> solves n g X (q2r t0) (q2r t0 + T) -> slope_changes n g X (q2r t0) (q2r t0 + T) M ->
  0 < h -> INR count * h <= T -> em_alpha (i_map s) = 1%Qc -> 0 <= tolerance s -> length x0 = n -> i_steps no_events nw c count (i_set t0 x0 soft s) = Some s' ->
  q2r (em_t (i_map s')) = q2r t0 + INR count * h /\
  dist2 n (toR (em_x (i_map s'))) (X (q2r (em_t (i_map s')))) <= dist2 n (toR x0) (X (q2r t0)) + T * (sqrt (INR n) * (M * h + tolerance s / h)).
Proof.
  intros OS HM SO SC Hh HC Ha TP Lx E. destruct (set_run dd lit mt limit c g LO CR PF PM count t0 x0 soft s s' Lx TP E) as (z & Z0 & ZK & TK & PZ).
  rewrite Ha, q2r_1 in PZ. split; [exact TK|]. rewrite TK, <- ZK, <- Z0. assert (PY : apath n g 1 h (M * h * h) (q2r t0) (fun i => X (q2r t0 + INR i * h)) count).
  { apply (exact_path n g X (q2r t0) T); [assumption|assumption|]. intros t T1 T2. apply euler_residual; [assumption|lra|assumption|apply (sub_solves n g X (q2r t0) T); assumption|].
    intros u v j Hu Hv Hj. apply SC; [lra|lra|assumption]. }
  assert (0 <= M * h * h) by (apply Rmult_le_pos; [apply Rmult_le_pos|]; lra).
  pose proof (contracting_run n g 0 h (tolerance s) (M * h * h) (q2r t0) z _ OS ltac:(lra) ltac:(lra) TP H count PZ PY) as R.
  cbv beta in R. change (INR 0) with 0 in R. rewrite Rmult_0_l, Rplus_0_r in R. rewrite Rmult_0_r, Rminus_0_r, pow1 in R. unfold Rdiv at 1 in R. rewrite Rinv_1, Rmult_1_r in R.
  eapply Rle_trans; [exact R|]. apply Rplus_le_compat_l. pose proof (pos_INR count).
  replace (INR count * (sqrt (INR n) * (tolerance s + M * h * h))) with (INR count * h * (sqrt (INR n) * (M * h + tolerance s / h))) by (field; lra).
  apply Rmult_le_compat_r; [|assumption]. apply Rmult_le_pos; [apply sqrt_pos|]. assert (0 <= tolerance s / h) by (apply Rmult_le_pos; [assumption|left; apply Rinv_0_lt_compat; assumption]).
  assert (0 <= M * h) by (apply Rmult_le_pos; lra). lra.
Qed.
Lemma two_implicit_runs nu count t0 x0 y0 soft soft' (s s' r r' : st) : one_sided n nu g -> nu <= 0 -> 0 <= h -> em_alpha (i_map s) = 1%Qc -> em_alpha (i_map r) = 1%Qc -> 0 <= tolerance s -> 0 <= tolerance r ->
  length x0 = n -> length y0 = n -> i_steps no_events nw c count (i_set t0 x0 soft s) = Some s' -> i_steps no_events nw c count (i_set t0 y0 soft' r) = Some r' ->
  dist2 n (toR (em_x (i_map s'))) (toR (em_x (i_map r'))) <= dist2 n (toR x0) (toR y0) / (1 - h * nu) ^ count + INR count * (sqrt (INR n) * (tolerance s + tolerance r)).
Proof.
  intros OS Hn Hh A1 A2 T1 T2 Lx Ly E1 E2. destruct (set_run dd lit mt limit c g LO CR PF PM count t0 x0 soft s s' Lx T1 E1) as (z & Z0 & ZK & _ & PZ).
  destruct (set_run dd lit mt limit c g LO CR PF PM count t0 y0 soft' r r' Ly T2 E2) as (y & Y0 & YK & _ & PY).
  rewrite A1, q2r_1 in PZ. rewrite A2, q2r_1 in PY. rewrite <- ZK, <- YK, <- Z0, <- Y0. apply (contracting_run n g nu h (tolerance s) (tolerance r) (q2r t0)); assumption.
Qed.
End Final.
