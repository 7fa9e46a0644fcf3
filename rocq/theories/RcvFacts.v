(** RcvFacts.v - convergence of the Rosenbrock solvers: estimates of one step in real numbers. *)
From Coq Require Import List Arith Bool Lia Reals Lra.
From Verif Require Import Base ConvSpec ConvFacts ConvFacts3 ConvFacts5 HighFacts5 ImcSpec ImcFacts ImcFacts3 GraFacts.
Import ListNotations.
Local Open Scope R_scope.

Fixpoint rmax (n : nat) (a : nat -> R) : R := match n with O => 0 | S m => Rmax (rmax m a) (Rabs (a m)) end.
Lemma rmax_ge n a : forall i, (i < n)%nat -> Rabs (a i) <= rmax n a.
Proof. induction n as [|n IH]; intros i Hi; [lia|]. cbn [rmax]. destruct (Nat.eq_dec i n) as [->|NE]; [apply Rmax_r|]. eapply Rle_trans; [apply IH; lia|apply Rmax_l]. Qed.
Lemma rmax_least n a B : 0 <= B -> (forall i, (i < n)%nat -> Rabs (a i) <= B) -> rmax n a <= B.
Proof. intros B0. induction n as [|n IH]; intros H; [exact B0|]. cbn [rmax]. apply Rmax_lub; [apply IH; intros i Hi; apply H; lia|apply H; lia]. Qed.
Lemma rmax_pos n a : 0 <= rmax n a.
Proof. induction n as [|n IH]; [apply Rle_refl|]. cbn [rmax]. eapply Rle_trans; [exact IH|apply Rmax_l]. Qed.

Section Matrix.
Context (n : nat) (J : nat -> nat -> R) (beta : R).
Hypothesis B0 : 0 <= beta.
Hypothesis ROW : forall i, (i < n)%nat -> rsum n (fun k => Rabs (J i k)) <= beta.
Lemma j_bound v B i : (i < n)%nat -> 0 <= B -> (forall k, (k < n)%nat -> Rabs (v k) <= B) -> Rabs (rsum n (fun k => J i k * v k)) <= beta * B.
Proof.
  intros Hi HB Hv. eapply Rle_trans; [apply (rsum_dom n (J i) v (fun _ => B)); exact Hv|]. rewrite <- (rsum_mult n (fun k => Rabs (J i k)) B). apply Rmult_le_compat_r; [exact HB|apply ROW; exact Hi].
Qed.
Lemma resolvent w k r B : Rabs w * beta <= / 2 -> 0 <= B -> (forall i, (i < n)%nat -> k i = r i + w * rsum n (fun j => J i j * k j)) -> (forall i, (i < n)%nat -> Rabs (r i) <= B) ->
  forall i, (i < n)%nat -> Rabs (k i) <= 2 * B.
Proof.
  intros W0 HB E HR. assert (P : rmax n k <= B + / 2 * rmax n k).
  { apply rmax_least; [pose proof (rmax_pos n k); lra|]. intros i Hi. rewrite E by exact Hi. eapply Rle_trans; [apply Rabs_triang|]. apply Rplus_le_compat; [apply HR; exact Hi|]. rewrite Rabs_mult.
    eapply Rle_trans; [apply Rmult_le_compat_l; [apply Rabs_pos|apply (j_bound k (rmax n k) i Hi (rmax_pos n k)); intros j Hj; apply rmax_ge; exact Hj]|]. rewrite <- Rmult_assoc. apply Rmult_le_compat_r; [apply rmax_pos|exact W0]. }
  intros i Hi. eapply Rle_trans; [apply rmax_ge; exact Hi|]. lra.
Qed.
End Matrix.

(** * One step against the solution *)
Section Step.
Context (n : nat) (g : R -> list R -> list R) (X : R -> list R) (t0 t1 K F L beta : R) (J : nat -> nat -> R).
Hypothesis SO : solves n g X t0 t1.
Hypothesis K0 : 0 <= K.
Hypothesis F0 : 0 <= F.
Hypothesis L0 : 0 <= L.
Hypothesis B0 : 0 <= beta.
Hypothesis SC : slope_changes n g X t0 t1 K.
Hypothesis FB : forall t j, t0 <= t <= t1 -> (j < n)%nat -> Rabs (cmpR (g t (X t)) j) <= F.
Hypothesis LIP : lipschitz_x n L g.
Hypothesis ROW : forall i, (i < n)%nat -> rsum n (fun k => Rabs (J i k)) <= beta.
Context (t h e : R) (x k1 : list R) (hw : R).
Hypothesis HT : t0 <= t.
Hypothesis H0 : 0 < h.
Hypothesis HE : t + h <= t1.
Hypothesis E0 : 0 <= e.
Hypothesis LX : length x = n.
Hypothesis NX : near n x (X t) e.
Hypothesis HW : Rabs hw * beta <= / 2.
Hypothesis EK : forall i, (i < n)%nat -> cmpR k1 i = cmpR (g t x) i + hw * rsum n (fun k => J i k * cmpR k1 k).
Notation V u j := (cmpR (g u (X u)) j).
Let XL : length (X t) = n. Proof. apply (SO t). lra. Qed.
Lemma slope_near j : (j < n)%nat -> Rabs (cmpR (g t x) j - V t j) <= L * e.
Proof. intros Hj. exact (LIP t x (X t) e LX XL NX j Hj). Qed.
Lemma Le0 : 0 <= L * e. Proof. apply Rmult_le_pos; assumption. Qed.
Lemma slope_small j : (j < n)%nat -> Rabs (cmpR (g t x) j) <= F + L * e.
Proof. intros Hj. replace (cmpR (g t x) j) with (V t j + (cmpR (g t x) j - V t j)) by ring. eapply Rle_trans; [apply Rabs_triang|]. apply Rplus_le_compat; [apply FB; [lra|exact Hj]|apply slope_near; exact Hj]. Qed.
Lemma k1_small i : (i < n)%nat -> Rabs (cmpR k1 i) <= 2 * (F + L * e).
Proof. apply (resolvent n J beta ROW hw (cmpR k1) (cmpR (g t x)) (F + L * e) HW ltac:(pose proof Le0; lra) EK slope_small). Qed.
Lemma k1_near i : (i < n)%nat -> Rabs (cmpR k1 i - V t i) <= L * e + Rabs hw * beta * (2 * (F + L * e)).
Proof.
  intros Hi. rewrite EK by exact Hi. match goal with |- Rabs (?a + ?b - ?c) <= _ => replace (a + b - c) with ((a - c) + b) by ring end. eapply Rle_trans; [apply Rabs_triang|]. apply Rplus_le_compat; [apply slope_near; exact Hi|].
  rewrite Rabs_mult, Rmult_assoc. apply Rmult_le_compat_l; [apply Rabs_pos|]. apply (j_bound n J beta ROW); [exact Hi|pose proof Le0; lra|exact k1_small].
Qed.
(** the state x + s k1 *)
Lemma inner s y : 0 <= s <= h -> (forall j, (j < n)%nat -> cmpR y j = cmpR x j + s * cmpR k1 j) ->
  near n y (X (t + s)) (e + s * (L * e + Rabs hw * beta * (2 * (F + L * e))) + K * (s * s)).
Proof.
  intros Hs EY j Hj. rewrite EY by exact Hj. pose proof (euler_res n g X t0 t1 K SO K0 SC t s j ltac:(lra) ltac:(lra) Hj) as ER. rewrite (Rabs_right s) in ER by lra.
  replace (cmpR x j + s * cmpR k1 j - cmpR (X (t + s)) j) with ((cmpR x j - cmpR (X t) j) + s * (cmpR k1 j - V t j) - (cmpR (X (t + s)) j - cmpR (X t) j - s * V t j)) by ring.
  eapply Rle_trans; [apply Rabs_triang|]. rewrite Rabs_Ropp. apply Rplus_le_compat; [|exact ER]. eapply Rle_trans; [apply Rabs_triang|]. apply Rplus_le_compat; [apply NX; exact Hj|].
  rewrite Rabs_mult, (Rabs_right s) by lra. apply Rmult_le_compat_l; [lra|]. apply k1_near. exact Hj.
Qed.
(** the linearly implicit Euler step, with hw = h d *)
Lemma w1_local eta next : Rabs hw * beta = h * eta -> (forall j, (j < n)%nat -> cmpR next j = cmpR x j + h * cmpR k1 j) -> near n next (X (t + h)) ((1 + h * (2 * L)) * e + (K + 2 * eta * F) * (h * h)).
Proof.
  intros EE EN j Hj. eapply Rle_trans; [apply (inner h next ltac:(lra) EN j Hj)|]. rewrite EE in HW |- *. pose proof Le0.
  assert (Q : h * (h * eta * (2 * (L * e))) <= h * (L * e)). { apply Rmult_le_compat_l; [lra|]. assert (h * eta * (2 * (L * e)) <= / 2 * (2 * (L * e))) by (apply Rmult_le_compat_r; lra). lra. }
  lra.
Qed.
(** * SW2(4) *)
Context (A : R -> nat -> R) (M : R).
Hypothesis M0 : 0 <= M.
Hypothesis CC : curvature_changes n g X A t0 t1 M.
Context (y k2 next : list R) (hd : R).
Notation s := (2 / 3 * h).
Hypothesis LY : length y = n.
Hypothesis EY : forall j, (j < n)%nat -> cmpR y j = cmpR x j + s * cmpR k1 j.
Hypothesis EK2 : forall i, (i < n)%nat -> cmpR k2 i = cmpR (g (t + s) y) i - 4 / 3 * hd * rsum n (fun k => J i k * cmpR k1 k) + hw * rsum n (fun k => J i k * cmpR k2 k).
Hypothesis EN : forall j, (j < n)%nat -> cmpR next j = cmpR x j + h * (/ 4 * cmpR k1 j + 3 / 4 * cmpR k2 j).
Notation kap := (2 * (F + L * e)).
Notation ey := (e + s * (L * e + Rabs hw * beta * kap) + K * (s * s)).
Lemma ey0 : 0 <= ey.
Proof.
  pose proof Le0 as P. assert (0 <= Rabs hw * beta) by (apply Rmult_le_pos; [apply Rabs_pos|exact B0]). assert (0 <= Rabs hw * beta * kap) by (apply Rmult_le_pos; lra).
  assert (0 <= s * (L * e + Rabs hw * beta * kap)) by (apply Rmult_le_pos; lra). assert (0 <= K * (s * s)) by (apply Rmult_le_pos; [exact K0|apply Rmult_le_pos; lra]). lra.
Qed.
Lemma f2_near j : (j < n)%nat -> Rabs (cmpR (g (t + s) y) j - V (t + s) j) <= L * ey.
Proof. intros Hj. refine (LIP (t + s) y (X (t + s)) ey LY _ (inner s y ltac:(lra) EY) j Hj). apply (SO (t + s)). lra. Qed.
Lemma diff_small i : (i < n)%nat -> Rabs (cmpR k2 i - cmpR k1 i) <= 2 * (L * ey + K * s + L * e + 4 / 3 * Rabs hd * beta * kap).
Proof.
  apply (resolvent n J beta ROW hw (fun i => cmpR k2 i - cmpR k1 i) (fun i => (cmpR (g (t + s) y) i - cmpR (g t x) i) - 4 / 3 * hd * rsum n (fun k => J i k * cmpR k1 k)) _ HW).
  - pose proof Le0. pose proof (Rmult_le_pos L ey L0 ey0). assert (0 <= K * s) by (apply Rmult_le_pos; lra). assert (0 <= 4 / 3 * Rabs hd * beta * kap) by (pose proof (Rabs_pos hd); repeat apply Rmult_le_pos; lra). lra.
  - intros j Hj. rewrite (EK2 j Hj) at 1. rewrite (EK j Hj) at 1.
    assert (Q : rsum n (fun k => J j k * (cmpR k2 k - cmpR k1 k)) = rsum n (fun k => J j k * cmpR k2 k) - rsum n (fun k => J j k * cmpR k1 k)) by (rewrite rsum_minus; apply rsum_ext; intros; ring). rewrite Q. ring.
  - intros j Hj. eapply Rle_trans; [apply Rabs_triang|]. rewrite Rabs_Ropp. apply Rplus_le_compat.
    + replace (cmpR (g (t + s) y) j - cmpR (g t x) j) with ((cmpR (g (t + s) y) j - V (t + s) j) + (V (t + s) j - V t j) - (cmpR (g t x) j - V t j)) by ring.
      eapply Rle_trans; [apply Rabs_triang|]. rewrite Rabs_Ropp. apply Rplus_le_compat; [|apply slope_near; exact Hj]. eapply Rle_trans; [apply Rabs_triang|]. apply Rplus_le_compat; [apply f2_near; exact Hj|].
      pose proof (SC (t + s) t j ltac:(lra) ltac:(lra) Hj) as Q. replace (t + s - t) with s in Q by ring. rewrite (Rabs_right s) in Q by lra. exact Q.
    + rewrite !Rabs_mult. rewrite (Rabs_right (4 / 3)) by lra. rewrite !Rmult_assoc. apply Rmult_le_compat_l; [lra|]. apply Rmult_le_compat_l; [apply Rabs_pos|]. apply (j_bound n J beta ROW); [exact Hj|pose proof Le0; lra|exact k1_small].
Qed.
Lemma radau j : (j < n)%nat -> Rabs (cmpR (X (t + h)) j - cmpR (X t) j - h * (/ 4 * V t j + 3 / 4 * V (t + s) j)) <= 4 / 3 * M * (h * h * h).
Proof.
  intros Hj. pose proof (expand n g X A t0 t1 M SO M0 CC t h j ltac:(lra) ltac:(lra) Hj) as E1. rewrite (Rabs_right h) in E1 by lra.
  assert (E2 : Rabs (V (t + s) j - V t j - s * A t j) <= M * (s * s)).
  { destruct CC as [DA CA]. destruct (MVT_cor2 (fun u => V u j) (fun u => A u j) t (t + s) ltac:(lra)) as (b & E & HB); [intros u Hu; apply DA; [lra|exact Hj]|].
    replace (t + s - t) with s in E by ring. rewrite E. replace (A b j * s - s * A t j) with ((A b j - A t j) * s) by ring. rewrite Rabs_mult, (Rabs_right s) by lra. replace (M * (s * s)) with (M * s * s) by ring. apply Rmult_le_compat_r; [lra|].
    eapply Rle_trans; [apply CA; [lra|lra|exact Hj]|]. apply Rmult_le_compat_l; [exact M0|]. rewrite Rabs_right by lra. lra. }
  replace (cmpR (X (t + h)) j - cmpR (X t) j - h * (/ 4 * V t j + 3 / 4 * V (t + s) j)) with ((cmpR (X (t + h)) j - cmpR (X t) j - h * V t j - h * h / 2 * A t j) - 3 / 4 * h * (V (t + s) j - V t j - s * A t j)) by field.
  eapply Rle_trans; [apply Rabs_triang|]. rewrite Rabs_Ropp, Rabs_mult, (Rabs_right (3 / 4 * h)) by lra.
  assert (Q : 3 / 4 * h * Rabs (V (t + s) j - V t j - s * A t j) <= 3 / 4 * h * (M * (s * s))) by (apply Rmult_le_compat_l; lra). replace (3 / 4 * h * (M * (s * s))) with (/ 3 * M * (h * h * h)) in Q by field. lra.
Qed.
Lemma sw_local : near n next (X (t + h))
  (e + h * (/ 4 * (L * e) + 3 / 4 * (L * ey)) + h * (3 / 2 * (Rabs hw * beta) * (L * ey + K * s + L * e + 4 / 3 * Rabs hd * beta * kap) + Rabs (hw - hd) * beta * kap) + 4 / 3 * M * (h * h * h)).
Proof.
  intros j Hj. rewrite EN by exact Hj. set (S1 := rsum n (fun k => J j k * cmpR k1 k)). set (SD := rsum n (fun k => J j k * (cmpR k2 k - cmpR k1 k))).
  assert (Q : SD = rsum n (fun k => J j k * cmpR k2 k) - S1) by (unfold SD, S1; rewrite rsum_minus; apply rsum_ext; intros; ring).
  assert (C : / 4 * cmpR k1 j + 3 / 4 * cmpR k2 j = / 4 * cmpR (g t x) j + 3 / 4 * cmpR (g (t + s) y) j + (3 / 4 * hw * SD + (hw - hd) * S1)) by (rewrite (EK j Hj), (EK2 j Hj), Q; fold S1; field). rewrite C.
  pose proof Le0 as P. assert (BS1 : Rabs S1 <= beta * kap) by (apply (j_bound n J beta ROW); [exact Hj|lra|exact k1_small]).
  assert (BSD : Rabs SD <= beta * (2 * (L * ey + K * s + L * e + 4 / 3 * Rabs hd * beta * kap))).
  { apply (j_bound n J beta ROW (fun k => cmpR k2 k - cmpR k1 k)); [exact Hj| |exact diff_small]. eapply Rle_trans; [apply Rabs_pos|apply (diff_small j Hj)]. }
  replace (cmpR x j + h * (/ 4 * cmpR (g t x) j + 3 / 4 * cmpR (g (t + s) y) j + (3 / 4 * hw * SD + (hw - hd) * S1)) - cmpR (X (t + h)) j) with
    ((cmpR x j - cmpR (X t) j) + h * (/ 4 * (cmpR (g t x) j - V t j) + 3 / 4 * (cmpR (g (t + s) y) j - V (t + s) j)) + h * (3 / 4 * hw * SD + (hw - hd) * S1)
     - (cmpR (X (t + h)) j - cmpR (X t) j - h * (/ 4 * V t j + 3 / 4 * V (t + s) j))) by ring.
  eapply Rle_trans; [apply Rabs_triang|]. rewrite Rabs_Ropp. apply Rplus_le_compat; [|apply radau; exact Hj]. eapply Rle_trans; [apply Rabs_triang|]. apply Rplus_le_compat; [eapply Rle_trans; [apply Rabs_triang|]; apply Rplus_le_compat; [apply NX; exact Hj|]|].
  - rewrite Rabs_mult, (Rabs_right h) by lra. apply Rmult_le_compat_l; [lra|]. eapply Rle_trans; [apply Rabs_triang|]. rewrite !Rabs_mult, (Rabs_right (/ 4)), (Rabs_right (3 / 4)) by lra.
    apply Rplus_le_compat; (apply Rmult_le_compat_l; [lra|]); [apply slope_near|apply f2_near]; exact Hj.
  - rewrite Rabs_mult, (Rabs_right h) by lra. apply Rmult_le_compat_l; [lra|]. eapply Rle_trans; [apply Rabs_triang|]. rewrite !Rabs_mult, (Rabs_right (3 / 4)) by lra. apply Rplus_le_compat.
    + eapply Rle_trans; [apply Rmult_le_compat_l; [pose proof (Rabs_pos hw); lra|exact BSD]|]. right. field.
    + rewrite (Rmult_assoc (Rabs (hw - hd))). apply Rmult_le_compat_l; [apply Rabs_pos|exact BS1].
Qed.
(** with the decomposition of the step itself *)
Lemma sw_second eta T : hw = hd -> Rabs hw * beta = h * eta -> h <= T -> near n next (X (t + h))
  ((1 + h * (2 * L + 3 / 2 * L * (1 + 2 * T * L))) * e + (3 / 2 * L * (2 * eta * F + K) + 3 / 2 * K * eta + 4 * eta * eta * F + 4 / 3 * M) * (h * h) * h).
Proof.
  intros EH EE HTT j Hj. eapply Rle_trans; [apply (sw_local j Hj)|]. pose proof ey0 as P0. rewrite <- EH, (Rminus_diag_eq hw hw eq_refl), Rabs_R0. rewrite !(Rmult_assoc (4 / 3)), EE in *. pose proof Le0 as P. set (z := h * eta) in *.
  assert (ET0 : 0 <= eta). { destruct (Rle_dec 0 eta); [assumption|]. exfalso. assert (0 <= Rabs hw * beta) by (apply Rmult_le_pos; [apply Rabs_pos|exact B0]). assert (z < 0) by (unfold z; apply Ropp_lt_cancel; rewrite Ropp_0, Ropp_mult_distr_r; apply Rmult_lt_0_compat; lra). lra. }
  assert (Z0 : 0 <= z) by (unfold z; apply Rmult_le_pos; lra). set (Y := e + s * (L * e + z * kap) + K * (s * s)) in *.
  assert (ZL : z * (L * e) <= / 2 * (L * e)) by (apply Rmult_le_compat_r; lra).
  assert (HLE : 0 <= h * (L * e)) by (apply Rmult_le_pos; lra).
  assert (YB : Y <= (1 + 2 * T * L) * e + (2 * eta * F + K) * (h * h)).
  { unfold Y. assert (Q1 : s * (L * e + z * kap) <= h * (L * e + z * kap)) by (apply Rmult_le_compat_r; [assert (0 <= z * kap) by (apply Rmult_le_pos; lra)|]; lra).
    assert (Q2 : K * (s * s) <= K * (h * h)) by (apply Rmult_le_compat_l; [exact K0|nra]). assert (Q3 : h * (z * kap) <= 2 * eta * F * (h * h) + h * (L * e)) by (replace (h * (z * kap)) with (2 * eta * F * (h * h) + h * (2 * (z * (L * e)))) by (unfold z; ring); apply Rplus_le_compat_l; apply Rmult_le_compat_l; lra).
    assert (Q4 : h * (L * e) <= T * (L * e)) by (apply Rmult_le_compat_r; lra). lra. }
  assert (LY0 : 0 <= L * Y) by (apply Rmult_le_pos; assumption).
  assert (R1 : 3 / 2 * z * (L * Y) <= 3 / 4 * (L * Y)) by (apply Rmult_le_compat_r; lra). assert (R2 : 3 / 2 * z * (L * e) <= 3 / 4 * (L * e)) by (apply Rmult_le_compat_r; lra).
  assert (R3 : 3 / 2 * z * (K * s) <= 3 / 2 * K * eta * (h * h)). { replace (3 / 2 * z * (K * s)) with (K * eta * (h * h)) by (unfold z; field). assert (0 <= K * eta * (h * h)) by (repeat apply Rmult_le_pos; lra). lra. }
  assert (R4 : 3 / 2 * z * (4 / 3 * (z * kap)) <= 4 * eta * eta * F * (h * h) + L * e).
  { replace (3 / 2 * z * (4 / 3 * (z * kap))) with (4 * eta * eta * F * (h * h) + 4 * (z * (z * (L * e)))) by (unfold z; field). apply Rplus_le_compat_l. assert (z * (z * (L * e)) <= z * (/ 2 * (L * e))) by (apply Rmult_le_compat_l; lra). lra. }
  assert (R5 : L * Y <= L * ((1 + 2 * T * L) * e + (2 * eta * F + K) * (h * h))) by (apply Rmult_le_compat_l; lra).
  set (q := h * h) in *. assert (FIN : / 4 * (L * e) + 3 / 4 * (L * Y) + (3 / 2 * z * (L * Y + K * s + L * e + 4 / 3 * (z * kap)) + 0 * beta * kap) <=
    (2 * L + 3 / 2 * L * (1 + 2 * T * L)) * e + (3 / 2 * L * (2 * eta * F + K) + 3 / 2 * K * eta + 4 * eta * eta * F) * q) by lra.
  apply (Rmult_le_compat_l h) in FIN; [|lra]. lra.
Qed.
(** with any decomposition *)
Lemma sw_first_order eta T H : 0 <= eta -> Rabs hw * beta <= H * eta -> Rabs hd * beta <= H * eta -> H * eta <= / 2 -> h <= H -> h <= T -> near n next (X (t + h))
  ((1 + h * (5 * L + 3 / 2 * L * (1 + 2 * T * L))) * e + (3 / 2 * L * (2 * eta * F + K) * T + 6 * eta * F + K + 4 / 3 * M * T) * H * h).
Proof.
  intros ET0 EE EEd HH1 HHh HTT j Hj. eapply Rle_trans; [apply (sw_local j Hj)|]. pose proof ey0 as P0. rewrite !(Rmult_assoc (4 / 3)) in *. pose proof Le0 as P. set (z := Rabs hw * beta) in *. set (zd := Rabs hd * beta) in *.
  assert (Z0 : 0 <= z) by (apply Rmult_le_pos; [apply Rabs_pos|exact B0]). assert (ZD0 : 0 <= zd) by (apply Rmult_le_pos; [apply Rabs_pos|exact B0]).
  assert (ZM : Rabs (hw - hd) * beta <= 2 * (H * eta)). { eapply Rle_trans; [apply Rmult_le_compat_r; [exact B0|unfold Rminus; apply Rabs_triang]|]. rewrite Rabs_Ropp, Rmult_plus_distr_r. fold z zd. lra. } set (zm := Rabs (hw - hd) * beta) in *.
  assert (ZM0 : 0 <= zm) by (apply Rmult_le_pos; [apply Rabs_pos|exact B0]). set (Y := e + s * (L * e + z * kap) + K * (s * s)) in *. assert (HP : 0 < H) by lra. set (u := H * eta) in *.
  assert (ZF : forall v c, 0 <= v -> v <= c * u -> 0 <= c -> v * F <= c * (u * F)) by (intros v c V0 VC C0; rewrite <- Rmult_assoc; apply Rmult_le_compat_r; [exact F0|exact VC]).
  assert (ZL : forall v c, v <= c -> v * (L * e) <= c * (L * e)) by (intros v c VC; apply Rmult_le_compat_r; lra).
  pose proof (ZF z 1 Z0 ltac:(lra) ltac:(lra)) as F1. pose proof (ZF zd 1 ZD0 ltac:(lra) ltac:(lra)) as F2. pose proof (ZF zm 2 ZM0 ltac:(lra) ltac:(lra)) as F3.
  pose proof (ZL z (/ 2) ltac:(lra)) as L1. pose proof (ZL zd (/ 2) ltac:(lra)) as L2. pose proof (ZL zm 1 ltac:(lra)) as L3.
  assert (U0 : 0 <= u) by (unfold u; apply Rmult_le_pos; lra). assert (UF : 0 <= u * F) by (apply Rmult_le_pos; assumption).
  assert (YB : Y <= (1 + 2 * T * L) * e + (2 * (u * F) * T + K * (H * T))).
  { unfold Y. assert (ZK : z * kap <= 2 * (u * F) + L * e) by lra. assert (ZK0 : 0 <= z * kap) by (apply Rmult_le_pos; lra). assert (Q1 : s * (L * e + z * kap) <= T * (L * e + (2 * (u * F) + L * e))) by (apply Rmult_le_compat; lra).
    assert (Q2 : K * (s * s) <= K * (H * T)) by (apply Rmult_le_compat_l; [exact K0|apply Rmult_le_compat; lra]). lra. }
  assert (LY0 : 0 <= L * Y) by (apply Rmult_le_pos; assumption).
  assert (R1 : 3 / 2 * z * (L * Y) <= 3 / 4 * (L * Y)) by (apply Rmult_le_compat_r; lra). assert (R2 : 3 / 2 * z * (L * e) <= 3 / 4 * (L * e)) by lra.
  assert (R3 : 3 / 2 * z * (K * s) <= K * H). { assert (KS : 0 <= K * s) by (apply Rmult_le_pos; lra). assert (z * (K * s) <= / 2 * (K * s)) by (apply Rmult_le_compat_r; lra). assert (K * s <= K * H) by (apply Rmult_le_compat_l; lra). lra. }
  assert (R4 : 3 / 2 * z * (4 / 3 * (zd * kap)) <= 2 * (u * F) + L * e).
  { assert (ZK : zd * kap <= 2 * (u * F) + L * e) by lra. assert (ZK0 : 0 <= zd * kap) by (apply Rmult_le_pos; lra). assert (z * (zd * kap) <= / 2 * (zd * kap)) by (apply Rmult_le_compat_r; lra). lra. }
  assert (R5 : L * Y <= L * ((1 + 2 * T * L) * e + (2 * (u * F) * T + K * (H * T)))) by (apply Rmult_le_compat_l; lra).
  assert (R6 : zm * kap <= 4 * (u * F) + 2 * (L * e)) by lra.
  assert (R7 : M * (h * h) <= M * (H * T)) by (apply Rmult_le_compat_l; [exact M0|apply Rmult_le_compat; lra]).
  assert (FIN : / 4 * (L * e) + 3 / 4 * (L * Y) + (3 / 2 * z * (L * Y + K * s + L * e + 4 / 3 * (zd * kap)) + zm * kap) + 4 / 3 * (M * (h * h)) <=
    (5 * L + 3 / 2 * L * (1 + 2 * T * L)) * e + (3 / 2 * L * (2 * eta * F + K) * T + 6 * eta * F + K + 4 / 3 * M * T) * H).
  { assert (UE : u * F = H * eta * F) by (unfold u; ring). replace ((3 / 2 * L * (2 * eta * F + K) * T + 6 * eta * F + K + 4 / 3 * M * T) * H) with (3 / 2 * (L * (2 * (u * F) * T + K * (H * T))) + 6 * (u * F) + K * H + 4 / 3 * (M * (H * T))) by (rewrite UE; ring). lra. }
  apply (Rmult_le_compat_l h) in FIN; [|lra]. lra.
Qed.
End Step.
