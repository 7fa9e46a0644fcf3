(** IfpFacts6.v - error bounds of the implicit alpha solver in rounded arithmetic, without a hypothesis on the computed states. *)
From Coq Require Import List Arith Bool ZArith Lia Permutation Reals Lra Psatz.
From Verif Require Import Base BaseFacts VecModel VOps MapModel NewtModel NewtSpec RkModel RkSpec StepSpec ExtModel ImpModel ImpSpec
  ConvSpec FpSpec ImcSpec ImcFacts ImcFacts2 ImcFacts3 IfpSpec IfpFacts IfpFacts2 IfpFacts3 IfpFacts4 IfpFacts5.
Import ListNotations.
Local Open Scope R_scope.

Lemma near_le n (y z : list R) a b : a <= b -> near n y z a -> near n y z b.
Proof. intros L H j Hj. eapply Rle_trans; [apply H; assumption|assumption]. Qed.
Lemma lip_value h L T eps r d k : 0 < h -> 0 <= L -> INR k * h <= T -> 0 <= d -> 0 <= eps -> 0 <= r ->
  exp (INR k * (2 * L * h)) * (d + INR k * (2 * (eps + r * h))) <= exp (2 * L * T) * (d + 2 * T * (r + eps / h)).
Proof.
  intros Hh HL HK Hd He Hr. set (q := exp (INR k * (2 * L * h)) * (d + INR k * (2 * (eps + r * h)))).
  assert (Q0 : 0 <= q). { apply Rmult_le_pos; [left; apply exp_pos|]. pose proof (pos_INR k). assert (0 <= r * h) by (apply Rmult_le_pos; lra). assert (0 <= INR k * (2 * (eps + r * h))) by (apply Rmult_le_pos; lra). lra. }
  assert (NQ : near 1 [q] [0] q). { intros j Hj. assert (j = 0)%nat as -> by lia. unfold cmpR. cbn [nth]. rewrite Rminus_0_r, Rabs_right; lra. }
  pose proof (lip_final 1 h L T eps r d k [q] [0] Hh HL HK Hd He Hr NQ 0%nat ltac:(lia)) as F. unfold cmpR in F. cbn [nth] in F. rewrite Rminus_0_r, Rabs_right in F by lra. exact F.
Qed.

Section Lip.
Variables (n : nat) (g : R -> list R -> list R) (X : R -> list R) (L al h eps e1 t0 T r d : R) (count : nat) (x0 : list R).
Hypothesis HL : 0 <= L.
Hypothesis LIP : lipschitz_x n L g.
Hypothesis HH : 0 < h.
Hypothesis A01 : 0 <= al <= 1.
Hypothesis SM : 2 * (h * al * L) <= 1.
Hypothesis EP : 0 <= eps.
Hypothesis E1P : 0 <= e1.
Hypothesis R0 : 0 <= r.
Hypothesis D0 : 0 <= d.
Hypothesis HC : INR count * h <= T.
Hypothesis NX : near n x0 (X t0) d.
Hypothesis RES : forall t, t0 <= t -> t + h <= t0 + T -> astep n g al h (r * h) t (X t) (X (t + h)).
Lemma lip_E0 : d <= exp (2 * L * T) * (d + 2 * T * (r + eps / h)).
Proof.
  pose proof (lip_value h L T eps r d 0 HH HL) as Q. change (INR 0) with 0 in Q. rewrite !Rmult_0_l, exp_0 in Q.
  assert (0 <= T) by (apply Rle_trans with (INR count * h); [apply Rmult_le_pos; [apply pos_INR|lra]|exact HC]). lra.
Qed.
Lemma lip_ST k z y del : (k < count)%nat -> 0 <= del -> z 0%nat = x0 -> apath n g al h eps t0 z k ->
  astep n g al h (eps + e1 * del) (t0 + INR k * h) (z k) y -> near n y (X (t0 + INR (S k) * h)) (exp (2 * L * T) * (d + 2 * T * (r + eps / h)) + 2 * e1 * del).
Proof.
  intros HK Hd Z0 PZ AS. assert (RH : 0 <= r * h) by (apply Rmult_le_pos; lra). pose proof (pos_INR k) as PK.
  assert (KC : INR (S k) <= INR count) by (apply le_INR; lia). assert (KT : INR (S k) * h <= T) by (apply Rle_trans with (INR count * h); [apply Rmult_le_compat_r; lra|exact HC]).
  assert (PY : apath n g al h (r * h) t0 (fun i => X (t0 + INR i * h)) k).
  { apply (exact_path n g X t0 T); [assumption| |exact RES]. rewrite S_INR in KT. lra. }
  pose proof (lipschitz_run n g L al h eps (r * h) t0 z _ k d HL LIP ltac:(lra) A01 SM EP RH D0 PZ PY) as Q. cbv beta in Q. change (INR 0) with 0 in Q. rewrite Rmult_0_l, Rplus_0_r, Z0 in Q. specialize (Q NX).
  set (dk := exp (INR k * (2 * L * h)) * (d + INR k * (2 * (eps + r * h)))) in *.
  assert (K0 : 0 <= INR k * h) by (apply Rmult_le_pos; lra).
  assert (E1' : 0 <= e1 * del) by (apply Rmult_le_pos; assumption).
  assert (CP : 0 <= d + INR k * (2 * (eps + r * h))). { assert (0 <= INR k * (2 * (eps + r * h))) by (apply Rmult_le_pos; lra). lra. }
  assert (DP : 0 <= dk) by (apply Rmult_le_pos; [left; apply exp_pos|exact CP]).
  pose proof (RES (t0 + INR k * h) ltac:(lra) ltac:(rewrite S_INR in KT; lra)) as RK.
  pose proof (astep_spread n g L al h (eps + e1 * del) (r * h) (t0 + INR k * h) (z k) y _ _ dk HL LIP ltac:(lra) A01 SM ltac:(lra) RH DP AS RK Q) as F.
  replace (t0 + INR k * h + h) with (t0 + INR (S k) * h) in F by (rewrite S_INR; ring).
  eapply near_le; [|exact F]. pose proof (lip_value h L T eps r d (S k) HH HL KT D0 EP R0) as V.
  assert (ST : (1 + 2 * L * h) * dk + 2 * (eps + r * h) <= exp (INR (S k) * (2 * L * h)) * (d + INR (S k) * (2 * (eps + r * h)))).
  { rewrite S_INR. replace ((INR k + 1) * (2 * L * h)) with (2 * L * h + INR k * (2 * L * h)) by ring. rewrite exp_plus.
    assert (X1 : 1 + 2 * L * h <= exp (2 * L * h)) by (apply exp_ineq1_le).
    assert (LH : 0 <= 2 * L * h) by (apply Rmult_le_pos; lra).
    assert (X2 : 1 <= exp (INR k * (2 * L * h))). { pose proof (exp_ineq1_le (INR k * (2 * L * h))). assert (0 <= INR k * (2 * L * h)) by (apply Rmult_le_pos; lra). lra. }
    set (a := exp (2 * L * h)) in *. set (b := exp (INR k * (2 * L * h))) in *. set (v := 2 * (eps + r * h)) in *. assert (V0 : 0 <= v) by (unfold v; lra).
    replace (a * b * (d + (INR k + 1) * v)) with (a * dk + (a * b) * v) by (unfold dk; ring).
    assert ((1 + 2 * L * h) * dk <= a * dk) by (apply Rmult_le_compat_r; assumption).
    assert (1 * v <= (a * b) * v) by (apply Rmult_le_compat_r; [assumption|]; nra). lra. }
  lra.
Qed.
End Lip.

Section Stiff.
Variables (n : nat) (g : R -> list R -> list R) (X : R -> list R) (h eps e1 t0 T r : R) (count : nat) (x0 : list R).
Hypothesis OS : one_sided n 0 g.
Hypothesis HH : 0 < h.
Hypothesis EP : 0 <= eps.
Hypothesis E1P : 0 <= e1.
Hypothesis R0 : 0 <= r.
Hypothesis HC : INR count * h <= T.
Hypothesis RES : forall t, t0 <= t -> t + h <= t0 + T -> astep n g 1 h (r * h) t (X t) (X (t + h)).
Notation E := (dist2 n x0 (X t0) + T * (sqrt (INR n) * (r + eps / h))).
Lemma stiff_E0 : near n x0 (X t0) E.
Proof.
  eapply near_le; [|apply dist2_near]. assert (0 <= T) by (apply Rle_trans with (INR count * h); [apply Rmult_le_pos; [apply pos_INR|lra]|exact HC]).
  assert (0 <= eps / h) by (apply Rmult_le_pos; [lra|left; apply Rinv_0_lt_compat; assumption]).
  assert (0 <= T * (sqrt (INR n) * (r + eps / h))); [|lra]. apply Rmult_le_pos; [assumption|]. apply Rmult_le_pos; [apply sqrt_pos|lra].
Qed.
Lemma stiff_ST k z y del : (k < count)%nat -> 0 <= del -> z 0%nat = x0 -> apath n g 1 h eps t0 z k ->
  astep n g 1 h (eps + e1 * del) (t0 + INR k * h) (z k) y -> near n y (X (t0 + INR (S k) * h)) (E + sqrt (INR n) * e1 * del).
Proof.
  intros HK Hd Z0 PZ AS. assert (RH : 0 <= r * h) by (apply Rmult_le_pos; lra). pose proof (pos_INR k) as PK.
  assert (KC : INR (S k) <= INR count) by (apply le_INR; lia). assert (KT : INR (S k) * h <= T) by (apply Rle_trans with (INR count * h); [apply Rmult_le_compat_r; lra|exact HC]).
  assert (PY : apath n g 1 h (r * h) t0 (fun i => X (t0 + INR i * h)) k).
  { apply (exact_path n g X t0 T); [assumption| |exact RES]. rewrite S_INR in KT. lra. }
  pose proof (contracting_run n g 0 h eps (r * h) t0 z _ OS ltac:(lra) ltac:(lra) EP RH k PZ PY) as Q.
  cbv beta in Q. change (INR 0) with 0 in Q. rewrite Rmult_0_l, Rplus_0_r, Z0 in Q. rewrite Rmult_0_r, Rminus_0_r, pow1 in Q. unfold Rdiv at 1 in Q. rewrite Rinv_1, Rmult_1_r in Q.
  assert (K0 : 0 <= INR k * h) by (apply Rmult_le_pos; lra). assert (E1' : 0 <= e1 * del) by (apply Rmult_le_pos; assumption).
  pose proof (RES (t0 + INR k * h) ltac:(lra) ltac:(rewrite S_INR in KT; lra)) as RK.
  set (z2 := fun i : nat => match i with O => z k | S _ => y end). set (y2 := fun i : nat => match i with O => X (t0 + INR k * h) | S _ => X (t0 + INR k * h + h) end).
  assert (P1 : apath n g 1 h (eps + e1 * del) (t0 + INR k * h) z2 1). { intros i Hi. assert (i = 0)%nat as -> by lia. change (INR 0) with 0. rewrite Rmult_0_l, Rplus_0_r. exact AS. }
  assert (P2 : apath n g 1 h (r * h) (t0 + INR k * h) y2 1). { intros i Hi. assert (i = 0)%nat as -> by lia. change (INR 0) with 0. rewrite Rmult_0_l, Rplus_0_r. exact RK. }
  pose proof (contracting_run n g 0 h (eps + e1 * del) (r * h) (t0 + INR k * h) z2 y2 OS ltac:(lra) ltac:(lra) ltac:(lra) RH 1 P1 P2) as F.
  rewrite Rmult_0_r, Rminus_0_r, pow1 in F. unfold Rdiv at 1 in F. rewrite Rinv_1, Rmult_1_r in F. change (INR 1) with 1 in F. unfold z2, y2 in F. rewrite Rmult_1_l in F.
  replace (t0 + INR k * h + h) with (t0 + INR (S k) * h) in F by (rewrite S_INR; ring).
  eapply near_le; [|apply dist2_near]. set (rn := sqrt (INR n)) in *. assert (RN : 0 <= rn) by apply sqrt_pos.
  eapply Rle_trans; [exact F|]. eapply Rle_trans; [apply Rplus_le_compat_r; exact Q|].
  assert (V : INR (S k) * h * (rn * (r + eps / h)) <= T * (rn * (r + eps / h))).
  { apply Rmult_le_compat_r; [|exact KT]. apply Rmult_le_pos; [assumption|]. assert (0 <= eps / h) by (apply Rmult_le_pos; [lra|left; apply Rinv_0_lt_compat; assumption]). lra. }
  replace (INR (S k) * h * (rn * (r + eps / h))) with (INR k * (rn * (eps + r * h)) + rn * (eps + r * h)) in V by (rewrite S_INR; field; lra).
  lra.
Qed.
End Stiff.

Section Final2.
Context (rnd : R -> R) (u eta : R) {W P D : Type} (dd : vmapping (FNum rnd) -> ddir (FNum rnd) D) (lit : ls_lit (FNum rnd)) (mt limit : nat) (c : icfg (FNum rnd) W P) (g : R -> list R -> list R) (Tm G Lt phi : R).
Hypothesis RD : rounds rnd u eta.
Hypothesis ID : idempotent rnd.
Hypothesis U0 : 0 <= u.
Hypothesis E0 : 0 <= eta.
Notation w := (u + eta).
Hypothesis W1 : w <= 1.
Hypothesis LE : (l_eta lit : R) <= 1.
Hypothesis CR : forall w b, 0 <= b -> computes_near (n_vars c) Tm b (phi * (1 + b)) (ic_rhs c w) g.
Hypothesis SW : forall b, 0 <= b -> slopes_within (n_vars c) Tm b (G * (1 + b)) Lt g.
Hypothesis PF : positions_first (ic_nd c) (ic_nf c) g.
Hypothesis PM : forall o, ic_ord c = Some o -> Permutation (fst o) (seq 0 (ic_nd c + ic_nf c)) /\ Permutation (snd o) (seq 0 (ic_nd c + ic_nf c)).
Hypothesis PR : forall pr, ic_pred c = Some pr -> forall h t x k q y q', pr h t x k q = Ret (y, q') -> machine rnd y.
Hypothesis G0 : 0 <= G.
Hypothesis Lt0 : 0 <= Lt.
Hypothesis phi0 : 0 <= phi.
Notation n := (n_vars c).
Notation nw := (plain_newton dd lit mt limit).
Notation st := (ist (FNum rnd) W P (perf (FNum rnd) (S:=D))).
Notation h := (ic_h c : R).
Variables (X : R -> list R) (t0 T M B : R) (count : nat) (x0 : list R) (soft : bool) (s s' : st).
Hypothesis HTm : 2 * (1 + Rabs t0 + T) <= Tm.
Hypothesis HM : 0 <= M.
Hypothesis HH : 0 < h.
Hypothesis HC : INR count * h <= T.
Hypothesis HW : 3 * INR count * w <= 1.
Hypothesis TP : 0 <= toleranceF s.
Hypothesis Lx : length x0 = n.
Hypothesis Mx : machine rnd x0.
Hypothesis SO : solves n g X t0 (t0 + T).
Hypothesis B0 : 0 <= B.
Hypothesis RU : i_steps no_events nw c count (i_set (N:=FNum rnd) t0 x0 soft s) = Some s'.
Notation A := (1 + Rabs t0 + T).
Notation eps := (toleranceF s + step_noise B (G * (1 + B)) Lt A T h w (phi * (1 + B))).
Notation e1 := (60 * (1 + G + phi) * (1 + h) * w + h * phi).
Lemma gr : 0 <= G * (1 + B). Proof. apply Rmult_le_pos; lra. Qed.
Lemma pr : 0 <= phi * (1 + B). Proof. apply Rmult_le_pos; lra. Qed.
Lemma eps0 : 0 <= eps.
Proof. pose proof (noise0 rnd u eta c B (G * (1 + B)) Lt (phi * (1 + B)) U0 E0 B0 gr Lt0 pr ltac:(lra) t0 T count HC). lra. Qed.
Lemma e10 : 0 <= e1.
Proof. assert (0 <= h * phi) by (apply Rmult_le_pos; lra). assert (0 <= 60 * (1 + G + phi) * (1 + h) * w); [|lra]. repeat apply Rmult_le_pos; lra. Qed.

Lemma implicit_follows (L d : R) : 0 <= L -> lipschitz_x n L g -> slope_changes n g X t0 (t0 + T) M -> 0 <= als rnd s <= 1 -> 2 * (h * als rnd s * L) <= 1 -> 0 <= d -> near n x0 (X t0) d ->
  let E := exp (2 * L * T) * (d + 2 * T * (M * h + eps / h)) in
  2 * e1 < 1 -> (forall t, t0 <= t <= t0 + T -> bound n (X t) (B - E)) ->
  Rabs (ts rnd s' - (t0 + INR count * h)) <= 2 * INR count * w * A /\ near n (xs rnd s') (X (t0 + INR count * h)) E.
Proof.
  intros HL LIP SC Ha Hs Hd NX E K1 XB. pose proof eps0 as EP. pose proof e10 as EQ. assert (MH : 0 <= M * h) by (apply Rmult_le_pos; lra).
  assert (RES : forall t, t0 <= t -> t + h <= t0 + T -> astep n g (als rnd s) h (M * h * h) t (X t) (X (t + h))).
  { intros t T1 T2. apply euler_residual; [assumption|assumption|assumption|apply (sub_solves n g X t0 T); assumption|]. intros a b j Hu Hv Hj. apply SC; [lra|lra|assumption]. }
  apply (implicit_errorF rnd u eta dd lit mt limit c g Tm B (G * (1 + B)) Lt (phi * (1 + B)) RD ID U0 E0 W1 LE (fun w => CR w B B0) (SW B B0) PF PM PR B0 gr Lt0 pr ltac:(lra) X t0 T M count x0 soft s s'); try assumption.
  intros i si Hi Ei.
  exact (proj1 (proj2 (proj2 (proj2 (proj2 (proj2 (stays rnd u eta dd lit mt limit c g Tm G Lt phi RD ID U0 E0 W1 LE CR SW PF PM PR G0 Lt0 phi0 HH X t0 T B E count x0 soft s HTm HC HW TP Lx Mx Ha B0 XB (2 * e1) K1
    (near_le _ _ _ _ _ (lip_E0 L h eps T (M * h) d count HL HH EP MH Hd HC) NX)
    (lip_ST n g X L (als rnd s) h eps e1 t0 T (M * h) d count x0 HL LIP HH Ha Hs EP EQ MH Hd HC NX RES) i Hi si Ei))))))).
Qed.
Lemma trapezoid_follows (L d : R) A2 : 0 <= L -> lipschitz_x n L g -> curvature_changes n g X A2 t0 (t0 + T) M -> als rnd s = / 2 -> h * L <= 1 -> 0 <= d -> near n x0 (X t0) d ->
  let E := exp (2 * L * T) * (d + 2 * T * (M * h ^ 2 + eps / h)) in
  2 * e1 < 1 -> (forall t, t0 <= t <= t0 + T -> bound n (X t) (B - E)) ->
  Rabs (ts rnd s' - (t0 + INR count * h)) <= 2 * INR count * w * A /\ near n (xs rnd s') (X (t0 + INR count * h)) E.
Proof.
  intros HL LIP CC Ha Hs Hd NX E K1 XB. pose proof eps0 as EP. pose proof e10 as EQ. assert (MH : 0 <= M * h ^ 2) by (apply Rmult_le_pos; [assumption|apply pow2_ge_0]).
  assert (RES : forall t, t0 <= t -> t + h <= t0 + T -> astep n g (als rnd s) h (M * h ^ 2 * h) t (X t) (X (t + h))).
  { intros t T1 T2. rewrite Ha. replace (M * h ^ 2 * h) with (M * h * h * h) by ring. apply trapezoid_residual with (A := A2); [assumption|assumption|apply (sub_solves n g X t0 T); assumption|].
    destruct CC as [C1 C2]. split; [intros a j Hu Hj; apply C1; [lra|assumption]|]. intros a b j Hu Hv Hj. apply C2; [lra|lra|assumption]. }
  apply (trapezoid_errorF rnd u eta dd lit mt limit c g Tm B (G * (1 + B)) Lt (phi * (1 + B)) RD ID U0 E0 W1 LE (fun w => CR w B B0) (SW B B0) PF PM PR B0 gr Lt0 pr ltac:(lra) X t0 T M count x0 soft s s') with (A2 := A2); try assumption.
  intros i si Hi Ei.
  exact (proj1 (proj2 (proj2 (proj2 (proj2 (proj2 (stays rnd u eta dd lit mt limit c g Tm G Lt phi RD ID U0 E0 W1 LE CR SW PF PM PR G0 Lt0 phi0 HH X t0 T B E count x0 soft s HTm HC HW TP Lx Mx ltac:(lra) B0 XB (2 * e1) K1
    (near_le _ _ _ _ _ (lip_E0 L h eps T (M * h ^ 2) d count HL HH EP MH Hd HC) NX)
    (lip_ST n g X L (als rnd s) h eps e1 t0 T (M * h ^ 2) d count x0 HL LIP HH ltac:(lra) ltac:(rewrite Ha; lra) EP EQ MH Hd HC NX RES) i Hi si Ei))))))).
Qed.
Lemma stiff_follows : one_sided n 0 g -> slope_changes n g X t0 (t0 + T) M -> als rnd s = 1 ->
  let E := dist2 n x0 (X t0) + T * (sqrt (INR n) * (M * h + eps / h)) in
  sqrt (INR n) * e1 < 1 -> (forall t, t0 <= t <= t0 + T -> bound n (X t) (B - E)) ->
  Rabs (ts rnd s' - (t0 + INR count * h)) <= 2 * INR count * w * A /\ dist2 n (xs rnd s') (X (t0 + INR count * h)) <= E.
Proof.
  intros OS SC Ha E K1 XB. pose proof eps0 as EP. pose proof e10 as EQ. assert (MH : 0 <= M * h) by (apply Rmult_le_pos; lra).
  assert (RES : forall t, t0 <= t -> t + h <= t0 + T -> astep n g 1 h (M * h * h) t (X t) (X (t + h))).
  { intros t T1 T2. apply euler_residual; [assumption|lra|assumption|apply (sub_solves n g X t0 T); assumption|]. intros a b j Hu Hv Hj. apply SC; [lra|lra|assumption]. }
  apply (stiff_errorF rnd u eta dd lit mt limit c g Tm B (G * (1 + B)) Lt (phi * (1 + B)) RD ID U0 E0 W1 LE (fun w => CR w B B0) (SW B B0) PF PM PR B0 gr Lt0 pr ltac:(lra) X t0 T M count x0 soft s s'); try assumption.
  intros i si Hi Ei. 
  refine (proj1 (proj2 (proj2 (proj2 (proj2 (proj2 (stays rnd u eta dd lit mt limit c g Tm G Lt phi RD ID U0 E0 W1 LE CR SW PF PM PR G0 Lt0 phi0 HH X t0 T B E count x0 soft s HTm HC HW TP Lx Mx ltac:(lra) B0 XB (sqrt (INR n) * e1) K1
    (stiff_E0 n X h eps t0 T (M * h) count x0 HH EP MH HC) _ i Hi si Ei))))))).
  rewrite Ha. exact (stiff_ST n g X h eps e1 t0 T (M * h) count x0 OS HH EP EQ MH HC RES).
Qed.
End Final2.
