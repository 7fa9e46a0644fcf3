(** IfpFacts4.v - runs of the implicit alpha solver in rounded arithmetic: error bounds. *)
From Coq Require Import List Arith Bool ZArith Lia Permutation Reals Lra Psatz.
From Verif Require Import Base BaseFacts VecModel VOps MapModel NewtModel NewtSpec RkModel RkSpec StepSpec ExtModel ImpModel ImpSpec
  ConvSpec FpSpec ImcSpec ImcFacts ImcFacts2 ImcFacts3 IfpSpec IfpFacts IfpFacts2 IfpFacts3.
Import ListNotations.
Local Open Scope R_scope.

Section Run.
Context (rnd : R -> R) (u eta : R) {W P D : Type} (dd : vmapping (FNum rnd) -> ddir (FNum rnd) D) (lit : ls_lit (FNum rnd)) (mt limit : nat) (c : icfg (FNum rnd) W P) (g : R -> list R -> list R) (Tm B G Lt phi : R).
Hypothesis RD : rounds rnd u eta.
Hypothesis ID : idempotent rnd.
Hypothesis U0 : 0 <= u.
Hypothesis E0 : 0 <= eta.
Notation w := (u + eta).
Hypothesis W1 : w <= 1.
Hypothesis LE : (l_eta lit : R) <= 1.
Hypothesis CR : forall w, computes_near (n_vars c) Tm B phi (ic_rhs c w) g.
Hypothesis SW : slopes_within (n_vars c) Tm B G Lt g.
Hypothesis PF : positions_first (ic_nd c) (ic_nf c) g.
Hypothesis PM : forall o, ic_ord c = Some o -> Permutation (fst o) (seq 0 (ic_nd c + ic_nf c)) /\ Permutation (snd o) (seq 0 (ic_nd c + ic_nf c)).
Hypothesis PR : forall pr, ic_pred c = Some pr -> forall h t x k q y q', pr h t x k q = Ret (y, q') -> machine rnd y.
Hypothesis B0 : 0 <= B.
Hypothesis G0 : 0 <= G.
Hypothesis Lt0 : 0 <= Lt.
Hypothesis phi0 : 0 <= phi.
Notation n := (n_vars c).
Notation nw := (plain_newton dd lit mt limit).
Notation st := (ist (FNum rnd) W P (perf (FNum rnd) (S:=D))).
Notation h := (ic_h c : R).
Hypothesis H0 : 0 <= h.
Definition xs (s : st) : list R := em_x (i_map s).
Definition ts (s : st) : R := em_t (i_map s).
Definition als (s : st) : R := em_alpha (i_map s).

Lemma slope_near wd t te x y tau j : length x = n -> bound n x B -> ic_rhs c wd t x = Ret y -> Rabs t <= Tm -> Rabs te <= Tm -> Rabs (t - te) <= tau -> (j < n)%nat ->
  Rabs (cmpR y j) <= G + phi /\ Rabs (cmpR y j - cmpR (g te x) j) <= phi + Lt * tau.
Proof.
  intros L BX E M1 M2 TT J. destruct (CR wd t x L) as (y' & E' & Ly & N). rewrite E in E'. injection E' as <-. specialize (N M1 BX j J).
  destruct (SW t te x M1 M2 L BX) as [S1 S2]. specialize (S1 j J). specialize (S2 j J). split.
  - pose proof (abs_shift _ _ _ _ N S1). lra.
  - pose proof (abs_trans _ _ _ _ _ N S2). assert (Lt * Rabs (t - te) <= Lt * tau) by (apply Rmult_le_compat_l; assumption). lra.
Qed.
Lemma step_realF (s s' : st) a te tau : length (xs s) = n -> machine rnd (xs s) -> bound n (xs s) B -> bound n (xs s') B -> 0 <= als s <= 1 ->
  Rabs te <= Tm -> Rabs (ts s) <= Tm -> Rabs (te + h) <= Tm -> Rabs (rnd (ts s + h)) <= Tm -> Rabs (ts s - te) <= tau -> Rabs (rnd (ts s + h) - (te + h)) <= tau -> 0 <= tau -> 0 <= toleranceF s -> i_step no_events nw c s = (s', IDone a) ->
  astep n g (als s) h (toleranceF s + 60 * (1 + B + (G + phi)) * (1 + h) * w + h * (phi + Lt * tau)) te (xs s) (xs s') /\
  length (xs s') = n /\ machine rnd (xs s') /\ ts s' = rnd (ts s + h) /\ als s' = als s /\ toleranceF s' = toleranceF s.
Proof.
  intros L0 MX BX BX' A01 M1 M2 M3 M4 T1 T2 T0 TP E.
  assert (GR : forall w, good_rhs (N:=FNum rnd) n (ic_rhs c w)). { intros wd t x Lx. destruct (CR wd t x Lx) as (y & E1 & L1 & _). exists y. split; assumption. }
  destruct (residualF rnd dd lit mt limit c (proj1 RD) ID LE GR PM PR s s' a L0 MX E) as (wd & X1 & F0 & F1 & Q0 & Q1 & LX & MX1 & POS & VEL & ET & EX & EA & ETOL).
  assert (EXs : xs s' = X1) by exact EX. rewrite EXs in *. clear EX. split; [|repeat split; assumption].
  split; [exact L0|]. split; [exact LX|]. intros j Hj.
  assert (NN : 0 <= h * (phi + Lt * tau)) by (apply Rmult_le_pos; [assumption|]; assert (0 <= Lt * tau) by (apply Rmult_le_pos; assumption); lra).
  destruct (Nat.lt_ge_cases j (ic_nd c)) as [LT|GE].
  - rewrite (PF te (xs s)) by assumption. rewrite (PF (te + h) X1) by assumption.
    assert (J2 : (ic_nd c + j < n)%nat) by (unfold n_vars; lia).
    pose proof (POS j LT) as PJ. change (cmpR X1 j = rp rnd (cmpR (xs s) (ic_nd c + j)) (cmpR X1 (ic_nd c + j)) (cmpR (xs s) j) h (als s)) in PJ. rewrite PJ.
    pose proof (rp_err rnd u eta RD U0 E0 W1 h (als s) B (G + phi) H0 A01 B0 ltac:(lra) (cmpR (xs s) (ic_nd c + j)) (cmpR X1 (ic_nd c + j)) (cmpR (xs s) j) (BX _ J2) (BX' _ J2) (BX _ Hj)) as Q. lra.
  - pose proof (VEL (j - ic_nd c)%nat ltac:(unfold n_vars in Hj; lia)) as V. replace (ic_nd c + (j - ic_nd c))%nat with j in V by lia.
    destruct (slope_near wd (ts s) te (xs s) F0 tau j L0 BX Q0 M2 M1 T1 Hj) as [S1 S2]. destruct (slope_near wd (rnd (ts s + h)) (te + h) X1 F1 tau j LX BX' Q1 M4 M3 T2 Hj) as [S3 S4].
    pose proof (rr_err rnd u eta RD U0 E0 W1 h (als s) B (G + phi) H0 A01 B0 ltac:(lra) (cmpR F0 j) (cmpR F1 j) (cmpR (xs s) j) (cmpR X1 j) (toleranceF s) S1 S3 (BX _ Hj) (BX' _ Hj) V) as Q.
    set (al := als s) in *. set (q := phi + Lt * tau) in *.
    replace (cmpR X1 j - cmpR (xs s) j - h * ((1 - al) * cmpR (g te (xs s)) j + al * cmpR (g (te + h) X1) j)) with
      ((cmpR X1 j - cmpR (xs s) j - h * ((1 - al) * cmpR F0 j + al * cmpR F1 j)) + h * ((1 - al) * (cmpR F0 j - cmpR (g te (xs s)) j) + al * (cmpR F1 j - cmpR (g (te + h) X1) j))) by ring.
    apply abs_add; [exact Q|]. apply mul_le; [rewrite Rabs_right by lra; lra|]. replace q with ((1 - al) * q + al * q) by ring.
    apply abs_add; apply mul_le; try assumption; rewrite Rabs_right; lra.
Qed.

Lemma steps_realF (t0 T : R) : 2 * (1 + Rabs t0 + T) <= Tm -> forall count k (s s' : st), 3 * INR (k + count) * w <= 1 -> INR (k + count) * h <= T ->
  length (xs s) = n -> machine rnd (xs s) -> 0 <= als s <= 1 -> 0 <= toleranceF s ->
  Rabs (ts s - (t0 + INR k * h)) <= 2 * INR k * w * (1 + Rabs t0 + T) ->
  (forall i si, (i <= count)%nat -> i_steps no_events nw c i s = Some si -> bound n (xs si) B) -> i_steps no_events nw c count s = Some s' ->
  Rabs (ts s' - (t0 + INR (k + count) * h)) <= 2 * INR (k + count) * w * (1 + Rabs t0 + T) /\
  exists z : nat -> list R, z 0%nat = xs s /\ z count = xs s' /\ apath n g (als s) h (toleranceF s + step_noise B G Lt (1 + Rabs t0 + T) T h w phi) (t0 + INR k * h) z count.
Proof.
  intros HTm. induction count as [|m IH]; intros k s s' KW KH L0 MX A01 TP TT BD E.
  - cbn [i_steps] in E. injection E as <-. rewrite Nat.add_0_r. split; [exact TT|]. exists (fun _ => xs s). split; [reflexivity|]. split; [reflexivity|]. intros i Hi; lia.
  - pose proof E as EE. cbn [i_steps] in E. destruct (i_step no_events nw c s) as [s1 r] eqn:E1. destruct r as [a| | |]; try discriminate E.
    assert (BX : bound n (xs s) B) by (apply (BD 0%nat s); [lia|reflexivity]).
    assert (BX1 : bound n (xs s1) B) by (apply (BD 1%nat s1); [lia|]; cbn [i_steps]; rewrite E1; reflexivity).
    set (A := 1 + Rabs t0 + T) in *. pose proof (Rabs_pos t0) as PT0. pose proof (pos_INR k) as PK.
    assert (KS : INR (S k) <= INR (k + S m)) by (apply le_INR; lia). rewrite S_INR in KS.
    assert (TS : (INR k + 1) * h <= T) by (apply Rle_trans with (INR (k + S m) * h); [apply Rmult_le_compat_r; assumption|assumption]).
    assert (KW1 : 3 * (INR k + 1) * w <= 1). { apply Rle_trans with (3 * INR (k + S m) * w); [|assumption]. apply Rmult_le_compat_r; lra. }
    assert (W0 : 0 <= w) by lra. assert (IKH : 0 <= INR k * h) by (apply Rmult_le_pos; assumption). assert (A1 : 1 <= A) by (unfold A; nra).
    (* the next time *)
    assert (TZ : Rabs (ts s + h) <= A - 1 + A).
    { replace (ts s + h) with ((ts s - (t0 + INR k * h)) + (t0 + (INR k + 1) * h)) by ring. assert (Rabs (t0 + (INR k + 1) * h) <= A - 1).
      { eapply Rle_trans; [apply Rabs_triang|]. rewrite (Rabs_right ((INR k + 1) * h)) by (apply Rle_ge, Rmult_le_pos; lra). unfold A. lra. }
      assert (2 * INR k * w * A <= A). { rewrite <- (Rmult_1_l A) at 2. apply Rmult_le_compat_r; [lra|]. assert (0 <= INR k * w) by (apply Rmult_le_pos; lra). lra. }
      eapply Rle_trans; [apply Rabs_triang|]. lra. }
    pose proof (rnd_err rnd u eta RD U0 E0 _ _ TZ) as TR.
    assert (TN : Rabs (rnd (ts s + h) - (t0 + INR k * h + h)) <= 2 * (INR k + 1) * w * A).
    { replace (rnd (ts s + h) - (t0 + INR k * h + h)) with ((rnd (ts s + h) - (ts s + h)) + (ts s - (t0 + INR k * h))) by ring.
      eapply Rle_trans; [apply Rabs_triang|]. lra. }
    assert (TE0 : Rabs (t0 + INR k * h) <= A - 1).
    { eapply Rle_trans; [apply Rabs_triang|]. rewrite (Rabs_right (INR k * h)) by lra. unfold A. lra. }
    assert (TE1 : Rabs (t0 + INR k * h + h) <= A - 1).
    { rewrite Rplus_assoc. eapply Rle_trans; [apply Rabs_triang|]. rewrite (Rabs_right (INR k * h + h)) by lra. unfold A. lra. }
    assert (TK1 : 2 * INR k * w * A <= A /\ 2 * (INR k + 1) * w * A <= A).
    { assert (0 <= INR k * w) by (apply Rmult_le_pos; lra). split; rewrite <- (Rmult_1_l A) at 2; apply Rmult_le_compat_r; lra. }
    pose proof (abs_shift _ _ _ _ TT TE0) as TS0. pose proof (abs_shift _ _ _ _ TN TE1) as TS2.
    set (tau := 2 * INR (k + S m) * w * A).
    assert (AW : 0 <= w * A) by (apply Rmult_le_pos; lra).
    assert (TA : 2 * (INR k + 1) * w * A <= tau). { unfold tau. replace (2 * (INR k + 1) * w * A) with ((INR k + 1) * (2 * (w * A))) by ring. replace (2 * INR (k + S m) * w * A) with (INR (k + S m) * (2 * (w * A))) by ring. apply Rmult_le_compat_r; lra. }
    assert (TB : 2 * INR k * w * A <= 2 * (INR k + 1) * w * A) by lra.
    assert (T0 : 0 <= tau). { apply Rle_trans with (2 * (INR k + 1) * w * A); [|exact TA]. replace (2 * (INR k + 1) * w * A) with ((2 * (INR k + 1)) * (w * A)) by ring. apply Rmult_le_pos; lra. }
    destruct (step_realF s s1 a (t0 + INR k * h) tau L0 MX BX BX1 A01 ltac:(lra) ltac:(lra) ltac:(lra) ltac:(lra) ltac:(lra) ltac:(lra) T0 TP E1) as (AS & L1 & M1 & TS1 & AL & TE).
    assert (AS2 : astep n g (als s) h (toleranceF s + step_noise B G Lt A T h w phi) (t0 + INR k * h) (xs s) (xs s1)).
    { destruct AS as (Q1 & Q2 & Q3). split; [exact Q1|]. split; [exact Q2|]. intros j Hj. eapply Rle_trans; [apply Q3; exact Hj|]. unfold step_noise.
      assert (Q : h * (Lt * tau) <= 2 * T * Lt * A * w).
      { unfold tau. replace (h * (Lt * (2 * INR (k + S m) * w * A))) with (INR (k + S m) * h * (2 * Lt * (w * A))) by ring. replace (2 * T * Lt * A * w) with (T * (2 * Lt * (w * A))) by ring.
        apply Rmult_le_compat_r; [|assumption]. apply Rmult_le_pos; lra. }
      lra. }
    destruct (IH (S k) s1 s') as (TF & z & Z0 & ZK & PZ).
    { replace (S k + m)%nat with (k + S m)%nat by lia. exact KW. }
    { replace (S k + m)%nat with (k + S m)%nat by lia. exact KH. }
    { exact L1. } { exact M1. } { rewrite AL. exact A01. } { rewrite TE. exact TP. }
    { rewrite TS1, S_INR. replace (t0 + (INR k + 1) * h) with (t0 + INR k * h + h) by ring. exact TN. }
    { intros i si Hi ES. apply (BD (S i) si); [lia|]. cbn [i_steps]. rewrite E1. exact ES. }
    { exact E. }
    replace (S k + m)%nat with (k + S m)%nat in TF by lia. split; [exact TF|].
    exists (fun i => match i with O => xs s | S i => z i end). split; [reflexivity|]. split; [exact ZK|]. intros i Hi. destruct i as [|i].
    + simpl INR. rewrite Rmult_0_l, Rplus_0_r. rewrite Z0. exact AS2.
    + pose proof (PZ i ltac:(lia)) as Q. rewrite AL, TE, S_INR in Q. rewrite S_INR. replace (t0 + INR k * h + (INR i + 1) * h) with (t0 + (INR k + 1) * h + INR i * h) by ring. exact Q.
Qed.

Section Final.
Variables (X : R -> list R) (t0 T M : R) (count : nat) (x0 : list R) (soft : bool) (s s' : st).
Hypothesis HTm : 2 * (1 + Rabs t0 + T) <= Tm.
Hypothesis HM : 0 <= M.
Hypothesis HH : 0 < h.
Hypothesis HC : INR count * h <= T.
Hypothesis HW : 3 * INR count * w <= 1.
Hypothesis TP : 0 <= toleranceF s.
Hypothesis Lx : length x0 = n.
Hypothesis Mx : machine rnd x0.
Hypothesis SO : solves n g X t0 (t0 + T).
Hypothesis RU : i_steps no_events nw c count (i_set (N:=FNum rnd) t0 x0 soft s) = Some s'.
Hypothesis BD : forall i si, (i <= count)%nat -> i_steps no_events nw c i (i_set (N:=FNum rnd) t0 x0 soft s) = Some si -> bound n (xs si) B.
Notation A := (1 + Rabs t0 + T).
Notation eps := (toleranceF s + step_noise B G Lt A T h w phi).
Lemma T0 : 0 <= T.
Proof. apply Rle_trans with (INR count * h); [apply Rmult_le_pos; [apply pos_INR|lra]|exact HC]. Qed.
Lemma noise0 : 0 <= step_noise B G Lt A T h w phi.
Proof.
  pose proof T0. pose proof (Rabs_pos t0). unfold step_noise. assert (0 <= w) by lra.
  assert (0 <= (60 * (1 + B + G + phi) * (1 + h))) by (apply Rmult_le_pos; lra). assert (0 <= 2 * T * Lt * A) by (repeat apply Rmult_le_pos; lra).
  assert (0 <= (60 * (1 + B + G + phi) * (1 + h) + 2 * T * Lt * A) * w) by (apply Rmult_le_pos; lra). assert (0 <= h * phi) by (apply Rmult_le_pos; lra). lra.
Qed.
Lemma set_runF : 0 <= als s <= 1 -> Rabs (ts s' - (t0 + INR count * h)) <= 2 * INR count * w * A /\
  exists z : nat -> list R, z 0%nat = x0 /\ z count = xs s' /\ apath n g (als s) h eps t0 z count.
Proof.
  intros A01. destruct (steps_realF t0 T HTm count 0 (i_set (N:=FNum rnd) t0 x0 soft s) s') as (TF & z & Z0 & ZK & PZ); try assumption.
  - change (INR 0) with 0. unfold ts. cbn [i_set i_map em_setState em_t]. replace (t0 - (t0 + 0 * h)) with 0 by ring. rewrite Rabs_R0. lra.
  - split; [exact TF|]. exists z. split; [exact Z0|]. split; [exact ZK|]. change (INR 0) with 0 in PZ. rewrite Rmult_0_l, Rplus_0_r in PZ. exact PZ.
Qed.
Lemma implicit_errorF (L d : R) : 0 <= L -> lipschitz_x n L g -> slope_changes n g X t0 (t0 + T) M -> 0 <= als s <= 1 -> 2 * (h * als s * L) <= 1 -> 0 <= d -> near n x0 (X t0) d ->
  Rabs (ts s' - (t0 + INR count * h)) <= 2 * INR count * w * A /\ near n (xs s') (X (t0 + INR count * h)) (exp (2 * L * T) * (d + 2 * T * (M * h + eps / h))).
Proof.
  intros HL LIP SC Ha Hs Hd N. destruct (set_runF Ha) as (TF & z & Z0 & ZK & PZ). split; [exact TF|]. rewrite <- ZK. pose proof noise0 as NZ.
  assert (PY : apath n g (als s) h (M * h * h) t0 (fun i => X (t0 + INR i * h)) count).
  { apply (exact_path n g X t0 T); [assumption|assumption|]. intros t T1 T2. apply euler_residual; [assumption|assumption|assumption|apply (sub_solves n g X t0 T); assumption|].
    intros a b j Hu Hv Hj. apply SC; [lra|lra|assumption]. }
  pose proof (lipschitz_run n g L (als s) h eps (M * h * h) t0 z _ count d HL LIP ltac:(lra) Ha Hs ltac:(lra) ltac:(apply Rmult_le_pos; [apply Rmult_le_pos|]; lra) Hd PZ PY) as Q.
  cbv beta in Q. change (INR 0) with 0 in Q. rewrite Rmult_0_l, Rplus_0_r, Z0 in Q. apply (lip_final n h L T eps (M * h) d count); try assumption; [lra|apply Rmult_le_pos; lra|]. exact (Q N).
Qed.
Lemma trapezoid_errorF (L d : R) A2 : 0 <= L -> lipschitz_x n L g -> curvature_changes n g X A2 t0 (t0 + T) M -> als s = / 2 -> h * L <= 1 -> 0 <= d -> near n x0 (X t0) d ->
  Rabs (ts s' - (t0 + INR count * h)) <= 2 * INR count * w * A /\ near n (xs s') (X (t0 + INR count * h)) (exp (2 * L * T) * (d + 2 * T * (M * h ^ 2 + eps / h))).
Proof.
  intros HL LIP CC Ha Hs Hd N. destruct (set_runF ltac:(lra)) as (TF & z & Z0 & ZK & PZ). split; [exact TF|]. rewrite <- ZK. pose proof noise0 as NZ. rewrite Ha in PZ.
  assert (PY : apath n g (/ 2) h (M * h * h * h) t0 (fun i => X (t0 + INR i * h)) count).
  { apply (exact_path n g X t0 T); [assumption|assumption|]. intros t T1 T2. apply trapezoid_residual with (A := A2); [assumption|assumption|apply (sub_solves n g X t0 T); assumption|].
    destruct CC as [C1 C2]. split; [intros a j Hu Hj; apply C1; [lra|assumption]|]. intros a b j Hu Hv Hj. apply C2; [lra|lra|assumption]. }
  assert (0 <= M * h * h) by (apply Rmult_le_pos; [apply Rmult_le_pos|]; lra).
  pose proof (lipschitz_run n g L (/ 2) h eps (M * h * h * h) t0 z _ count d HL LIP ltac:(lra) ltac:(lra) ltac:(lra) ltac:(lra) ltac:(apply Rmult_le_pos; lra) Hd PZ PY) as Q.
  cbv beta in Q. change (INR 0) with 0 in Q. rewrite Rmult_0_l, Rplus_0_r, Z0 in Q. replace (M * h ^ 2) with (M * h * h) by ring. apply (lip_final n h L T eps (M * h * h) d count); try assumption; [lra|]. exact (Q N).
Qed.
Lemma stiff_errorF : one_sided n 0 g -> slope_changes n g X t0 (t0 + T) M -> als s = 1 ->
  Rabs (ts s' - (t0 + INR count * h)) <= 2 * INR count * w * A /\
  dist2 n (xs s') (X (t0 + INR count * h)) <= dist2 n x0 (X t0) + T * (sqrt (INR n) * (M * h + eps / h)).
Proof.
  intros OS SC Ha. destruct (set_runF ltac:(lra)) as (TF & z & Z0 & ZK & PZ). split; [exact TF|]. rewrite <- ZK, <- Z0. pose proof noise0 as NZ. rewrite Ha in PZ.
  assert (PY : apath n g 1 h (M * h * h) t0 (fun i => X (t0 + INR i * h)) count).
  { apply (exact_path n g X t0 T); [assumption|assumption|]. intros t T1 T2. apply euler_residual; [assumption|lra|assumption|apply (sub_solves n g X t0 T); assumption|].
    intros a b j Hu Hv Hj. apply SC; [lra|lra|assumption]. }
  assert (0 <= M * h * h) by (apply Rmult_le_pos; [apply Rmult_le_pos|]; lra).
  pose proof (contracting_run n g 0 h eps (M * h * h) t0 z _ OS ltac:(lra) ltac:(lra) ltac:(lra) H count PZ PY) as Q.
  cbv beta in Q. change (INR 0) with 0 in Q. rewrite Rmult_0_l, Rplus_0_r in Q. rewrite Rmult_0_r, Rminus_0_r, pow1 in Q. unfold Rdiv at 1 in Q. rewrite Rinv_1, Rmult_1_r in Q.
  eapply Rle_trans; [exact Q|]. apply Rplus_le_compat_l. pose proof (pos_INR count).
  replace (INR count * (sqrt (INR n) * (eps + M * h * h))) with (INR count * h * (sqrt (INR n) * (M * h + eps / h))) by (field; lra).
  apply Rmult_le_compat_r; [|assumption]. apply Rmult_le_pos; [apply sqrt_pos|]. assert (0 <= eps / h) by (apply Rmult_le_pos; [lra|left; apply Rinv_0_lt_compat; assumption]).
  assert (0 <= M * h) by (apply Rmult_le_pos; lra). lra.
Qed.
End Final.
End Run.

(** Newton's method from setInitialGuess *)
Lemma newton_rounded (rnd : R -> R) {S} (dd : ddir (FNum rnd) S) (lit : ls_lit (FNum rnd)) mt (g : vmapping (FNum rnd)) limit (x : list R) hard p p' log : rnd 0 = 0 -> idempotent rnd -> (l_eta lit : R) <= 1 -> machine rnd x ->
  nrun (plain_comps dd lit mt g) limit (pf_guess dd x hard p) = Ret (p', log, NConverged) ->
  machine rnd (p_x p') /\ exists f : list R, mapf g (p_x p') = Ret f /\ forall v, In v f -> Rabs v <= e_absTol (p_est p).
Proof.
  intros R0 ID LE MX E. destruct (run_solutionF rnd R0 ID dd lit mt g limit (pf_guess dd x hard p) p' log NConverged LE eq_refl eq_refl (steady_machine rnd R0 _ MX) E) as (_ & [SP _] & SOL).
  split; [exact (steady_is_machine rnd R0 _ SP)|exact (SOL eq_refl)].
Qed.
Lemma one_step (rnd : R -> R) (u eta : R) {W P D : Type} (dd : vmapping (FNum rnd) -> ddir (FNum rnd) D) (lit : ls_lit (FNum rnd)) (mt limit : nat) (c : icfg (FNum rnd) W P) (g : R -> list R -> list R) (Tm B G Lt phi : R) :
  rounds rnd u eta -> idempotent rnd -> 0 <= u -> 0 <= eta -> u + eta <= 1 -> (l_eta lit : R) <= 1 ->
  (forall w, computes_near (n_vars c) Tm B phi (ic_rhs c w) g) -> slopes_within (n_vars c) Tm B G Lt g -> positions_first (ic_nd c) (ic_nf c) g ->
  (forall o, ic_ord c = Some o -> Permutation (fst o) (seq 0 (ic_nd c + ic_nf c)) /\ Permutation (snd o) (seq 0 (ic_nd c + ic_nf c))) ->
  (forall pr, ic_pred c = Some pr -> forall h t x k q y q', pr h t x k q = Ret (y, q') -> machine rnd y) ->
  0 <= B -> 0 <= G -> 0 <= Lt -> 0 <= phi ->
  forall (s s' : ist (FNum rnd) W P (perf (FNum rnd) (S:=D))) a,
  let n := n_vars c in let h := ic_h c : R in let al := em_alpha (i_map s) : R in let t := em_t (i_map s) : R in
  let x := em_x (i_map s) : list R in let y := em_x (i_map s') : list R in let w := u + eta in
  0 <= h -> 0 <= al <= 1 -> 2 * (1 + Rabs t + h) <= Tm -> length x = n -> machine rnd x -> bound n x B -> bound n y B -> 0 <= toleranceF s ->
  i_step no_events (plain_newton dd lit mt limit) c s = (s', IDone a) ->
  length y = n /\ machine rnd y /\ Rabs (em_t (i_map s') - (t + h)) <= w * (1 + Rabs t + h) /\
  near n y (map (fun j => cmpR x j + h * ((1 - al) * cmpR (g t x) j + al * cmpR (g (t + h) y) j)) (seq 0 n))
    (toleranceF s + 60 * (1 + B + G + phi) * (1 + h) * w + h * (phi + Lt * (w * (1 + Rabs t + h)))).
Proof.
  intros RD ID U0 E0 W1 LE CR SW PF PM PR B0 G0 Lt0 phi0 s s' a n h al t x y w H0 A01 HT L0 MX BX BY TP E.
  pose proof (Rabs_pos t) as PT. assert (W0 : 0 <= w) by (unfold w; lra).
  assert (TZ : Rabs (t + h) <= Rabs t + h) by (eapply Rle_trans; [apply Rabs_triang|]; rewrite (Rabs_right h) by lra; lra).
  pose proof (rnd_err rnd u eta RD U0 E0 _ _ TZ) as TR. fold w in TR.
  assert (TW : 0 <= w * (1 + Rabs t + h)) by (apply Rmult_le_pos; lra).
  assert (WA : w * (1 + Rabs t + h) <= 1 * (1 + Rabs t + h)) by (apply Rmult_le_compat_r; [lra|exact W1]).
  pose proof (abs_shift _ _ _ _ TR TZ) as TS. replace (1 + (Rabs t + h)) with (1 + Rabs t + h) in TR by ring.
  assert (N1 : Rabs t <= Tm) by lra. assert (N2 : Rabs (t + h) <= Tm) by lra. assert (N3 : Rabs (rnd (t + h)) <= Tm) by lra.
  assert (N4 : Rabs (t - t) <= w * (1 + Rabs t + h)) by (replace (t - t) with 0 by ring; rewrite Rabs_R0; exact TW).
  destruct (step_realF rnd u eta dd lit mt limit c g Tm B G Lt phi RD ID U0 E0 W1 LE CR SW PF PM PR B0 G0 Lt0 phi0 H0 s s' a t (w * (1 + Rabs t + h)) L0 MX BX BY A01 N1 N1 N2 N3 N4 TR TW TP E) as (AS & L1 & M1 & TS1 & _).
  split; [exact L1|]. split; [exact M1|]. split; [change (em_t (i_map s') : R) with (ts rnd s'); rewrite TS1; exact TR|].
    destruct AS as (_ & _ & AS). intros j Hj. specialize (AS j Hj). unfold cmpR at 2. rewrite nth_indep with (d' := cmpR x 0 + h * ((1 - al) * cmpR (g t x) 0 + al * cmpR (g (t + h) y) 0)) by (rewrite map_length, seq_length; exact Hj).
    rewrite (map_nth (fun j => cmpR x j + h * ((1 - al) * cmpR (g t x) j + al * cmpR (g (t + h) y) j))), seq_nth by exact Hj. cbn [Nat.add].
    replace (cmpR y j - (cmpR x j + h * ((1 - al) * cmpR (g t x) j + al * cmpR (g (t + h) y) j))) with (cmpR y j - cmpR x j - h * ((1 - al) * cmpR (g t x) j + al * cmpR (g (t + h) y) j)) by ring.
    eapply Rle_trans; [exact AS|]. fold w h. right. ring.
Qed.
