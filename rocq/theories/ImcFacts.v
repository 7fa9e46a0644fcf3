(** ImcFacts.v - the alpha method over the real numbers, with a residual in every step. *)
From Coq Require Import List Arith ZArith Lia Reals Lra Psatz.
From Verif Require Import Base VecModel VOps RkModel RkSpec StepSpec ConvSpec ConvFacts3 ConvFacts4 ConvFacts5 ImcSpec.
Import ListNotations.
Local Open Scope R_scope.

(** * Discrete Gronwall *)
Lemma exp_ge a : 1 + a <= exp a.
Proof.
  destruct (Req_dec a 0) as [->|NE]; [rewrite exp_0; lra|]. left. apply exp_ineq1. assumption.
Qed.
Lemma exp_nat a k : exp (INR k * a) = exp a ^ k.
Proof. induction k as [|k IH]; [rewrite Rmult_0_l, exp_0; reflexivity|]. rewrite S_INR, Rmult_plus_distr_r, Rmult_1_l, exp_plus, IH. simpl. ring. Qed.
Lemma gronwall (e : nat -> R) a b : 0 <= a -> 0 <= b -> 0 <= e 0%nat -> forall k, (forall i, (i < k)%nat -> e (S i) <= (1 + a) * e i + b) ->
  e k <= exp (INR k * a) * (e 0%nat + INR k * b).
Proof.
  intros Ha Hb He. assert (G : forall k, (forall i, (i < k)%nat -> e (S i) <= (1 + a) * e i + b) -> e k <= (1 + a) ^ k * (e 0%nat + INR k * b)).
  { induction k as [|k IH]; intros H; [simpl; lra|]. eapply Rle_trans; [apply H; lia|].
    assert (I : e k <= (1 + a) ^ k * (e 0%nat + INR k * b)) by (apply IH; intros; apply H; lia).
    assert (P1 : 1 <= (1 + a) ^ S k) by (apply pow_R1_Rle; lra).
    rewrite S_INR. replace ((1 + a) ^ S k * (e 0%nat + (INR k + 1) * b)) with ((1 + a) * ((1 + a) ^ k * (e 0%nat + INR k * b)) + (1 + a) ^ S k * b) by (simpl; ring).
    apply Rplus_le_compat; [apply Rmult_le_compat_l; lra|]. nra. }
  intros k H. eapply Rle_trans; [apply (G k H)|]. apply Rmult_le_compat_r; [pose proof (pos_INR k); nra|].
  rewrite exp_nat. apply pow_incr. split; [lra|apply exp_ge].
Qed.

(** the largest difference of two vectors *)
Lemma max_diff n x y : exists m, 0 <= m /\ near n x y m /\ forall b, 0 <= b -> near n x y b -> m <= b.
Proof.
  induction n as [|n (m & M0 & N & Q)]; [exists 0; split; [lra|]; split; [intros j Hj; lia|auto]|].
  exists (Rmax m (Rabs (cmpR x n - cmpR y n))). split; [eapply Rle_trans; [exact M0|apply Rmax_l]|]. split.
  - intros j Hj. destruct (Nat.eq_dec j n) as [->|NE]; [apply Rmax_r|]. eapply Rle_trans; [apply N; lia|apply Rmax_l].
  - intros b B0 NB. apply Rmax_lub; [apply Q; [assumption|]; intros j Hj; apply NB; lia|apply NB; lia].
Qed.

(** * One step: X1 = X0 + h ((1-al) g(t0,X0) + al g(t0+h,X1)) + r, |r| <= eps *)
Definition astep (n : nat) (g : R -> list R -> list R) (al h eps t : R) (x y : list R) : Prop :=
  length x = n /\ length y = n /\ forall j, (j < n)%nat -> Rabs (cmpR y j - cmpR x j - h * ((1 - al) * cmpR (g t x) j + al * cmpR (g (t + h) y) j)) <= eps.

Lemma astep_spread n g L al h e1 e2 t x y u v d : 0 <= L -> lipschitz_x n L g -> 0 <= h -> 0 <= al <= 1 -> 2 * (h * al * L) <= 1 -> 0 <= e1 -> 0 <= e2 -> 0 <= d ->
  astep n g al h e1 t x y -> astep n g al h e2 t u v -> near n x u d -> near n y v ((1 + 2 * L * h) * d + 2 * (e1 + e2)).
Proof.
  intros HL LIP Hh Ha Hs E1 E2 Hd (Lx & Ly & A) (Lu & Lv & B) N.
  destruct (max_diff n y v) as (m & M0 & NM & Q).
  assert (G : near n y v (d + h * ((1 - al) * (L * d) + al * (L * m)) + (e1 + e2))).
  { intros j Hj. pose proof (A j Hj) as Aj. pose proof (B j Hj) as Bj. pose proof (N j Hj) as Nj.
    pose proof (LIP t x u d Lx Lu N j Hj) as K1. pose proof (LIP (t + h) y v m Ly Lv NM j Hj) as K2.
    set (a0 := cmpR (g t x) j) in *. set (b0 := cmpR (g t u) j) in *. set (a1 := cmpR (g (t + h) y) j) in *. set (b1 := cmpR (g (t + h) v) j) in *.
    set (p := cmpR x j) in *. set (q := cmpR y j) in *. set (r := cmpR u j) in *. set (s := cmpR v j) in *.
    replace (q - s) with ((p - r) + h * ((1 - al) * (a0 - b0) + al * (a1 - b1)) + ((q - p - h * ((1 - al) * a0 + al * a1)) - (s - r - h * ((1 - al) * b0 + al * b1)))) by ring.
    eapply Rle_trans; [apply Rabs_triang|]. apply Rplus_le_compat.
    - eapply Rle_trans; [apply Rabs_triang|]. apply Rplus_le_compat; [exact Nj|]. rewrite Rabs_mult, (Rabs_right h) by lra. apply Rmult_le_compat_l; [lra|].
      eapply Rle_trans; [apply Rabs_triang|]. rewrite !Rabs_mult, (Rabs_right (1 - al)), (Rabs_right al) by lra. apply Rplus_le_compat; apply Rmult_le_compat_l; lra.
    - eapply Rle_trans; [apply Rabs_triang|]. rewrite Rabs_Ropp. apply Rplus_le_compat; assumption. }
  assert (POS : 0 <= d + h * ((1 - al) * (L * d) + al * (L * m)) + (e1 + e2)).
  { assert (0 <= (1 - al) * (L * d)) by (apply Rmult_le_pos; [lra|apply Rmult_le_pos; lra]). assert (0 <= al * (L * m)) by (apply Rmult_le_pos; [lra|apply Rmult_le_pos; lra]).
    assert (0 <= h * ((1 - al) * (L * d) + al * (L * m))) by (apply Rmult_le_pos; lra). lra. }
  pose proof (Q _ POS G) as I.
  assert (M1 : m <= (1 + 2 * L * h) * d + 2 * (e1 + e2)).
  { set (k := h * al * L) in *. set (l := h * L) in *. assert (K0 : 0 <= k) by (unfold k; apply Rmult_le_pos; [apply Rmult_le_pos; lra|lra]). assert (L0 : 0 <= l) by (unfold l; apply Rmult_le_pos; lra).
    assert (KL : k <= l) by (unfold k, l; replace (h * al * L) with (al * (h * L)) by ring; assert (0 <= h * L) by (apply Rmult_le_pos; lra); nra).
    replace (d + h * ((1 - al) * (L * d) + al * (L * m)) + (e1 + e2)) with (d + (l - k) * d + k * m + (e1 + e2)) in I by (unfold k, l; ring).
    replace (1 + 2 * L * h) with (1 + 2 * l) by (unfold l; ring).
    assert (J : (1 - k) * m <= (1 + l - k) * d + (e1 + e2)) by lra.
    assert (W : (1 + l - k) * d + (e1 + e2) <= (1 - k) * ((1 + 2 * l) * d + 2 * (e1 + e2))).
    { assert (k * (2 * l) <= l) by nra. assert (1 + l - k <= (1 - k) * (1 + 2 * l)) by lra. assert ((1 + l - k) * d <= (1 - k) * (1 + 2 * l) * d) by (apply Rmult_le_compat_r; assumption).
      assert (k * (e1 + e2) * 2 <= (e1 + e2)) by nra. nra. }
    apply Rmult_le_reg_l with (1 - k); [lra|lra]. }
  intros j Hj. eapply Rle_trans; [apply NM; assumption|exact M1].
Qed.

(** * The exact solution as a run with small residuals *)
Lemma euler_residual n g X t h M al : 0 < h -> 0 <= al <= 1 -> 0 <= M -> solves n g X t (t + h) -> slope_changes n g X t (t + h) M ->
  astep n g al h (M * h * h) t (X t) (X (t + h)).
Proof.
  intros Hh Ha HM SO SC. split; [apply SO; lra|]. split; [apply SO; lra|]. intros j Hj.
  destruct (MVT_cor2 (fun u => cmpR (X u) j) (fun u => cmpR (g u (X u)) j) t (t + h)) as [c [E [C1 C2]]]; [lra|intros c Hc; apply (proj2 (SO c Hc)); assumption|].
  pose proof (SC c t j ltac:(lra) ltac:(lra) Hj) as K0. pose proof (SC c (t + h) j ltac:(lra) ltac:(lra) Hj) as K1.
  set (vc := cmpR (g c (X c)) j) in *. set (v0 := cmpR (g t (X t)) j) in *. set (v1 := cmpR (g (t + h) (X (t + h))) j) in *.
  replace (cmpR (X (t + h)) j - cmpR (X t) j - h * ((1 - al) * v0 + al * v1)) with (h * ((1 - al) * (vc - v0) + al * (vc - v1))).
  2:{ transitivity (vc * (t + h - t) - h * ((1 - al) * v0 + al * v1)); [ring|]. rewrite <- E. ring. }
  rewrite (Rabs_right (c - t)) in K0 by lra. rewrite (Rabs_left (c - (t + h))) in K1 by lra.
  rewrite Rabs_mult, (Rabs_right h) by lra. replace (M * h * h) with (h * (M * h)) by ring. apply Rmult_le_compat_l; [lra|].
  eapply Rle_trans; [apply Rabs_triang|]. rewrite !Rabs_mult, (Rabs_right (1 - al)), (Rabs_right al) by lra.
  assert (B0 : Rabs (vc - v0) <= M * h) by (eapply Rle_trans; [exact K0|]; apply Rmult_le_compat_l; lra).
  assert (B1 : Rabs (vc - v1) <= M * h) by (eapply Rle_trans; [exact K1|]; apply Rmult_le_compat_l; lra).
  assert ((1 - al) * Rabs (vc - v0) <= (1 - al) * (M * h)) by (apply Rmult_le_compat_l; lra).
  assert (al * Rabs (vc - v1) <= al * (M * h)) by (apply Rmult_le_compat_l; lra). lra.
Qed.
Lemma trapezoid_residual n g X A t h M : 0 < h -> 0 <= M -> solves n g X t (t + h) -> curvature_changes n g X A t (t + h) M ->
  astep n g (/ 2) h (M * h * h * h) t (X t) (X (t + h)).
Proof.
  intros Hh HM SO [DA CA]. split; [apply SO; lra|]. split; [apply SO; lra|]. intros j Hj.
  set (V := fun u => cmpR (g u (X u)) j).
  set (phi := fun u => cmpR (X u) j - cmpR (X t) j - (u - t) * ((1 - / 2) * V t + / 2 * V u)).
  set (dphi := fun u => V u - ((1 - / 2) * V t + / 2 * V u) - (u - t) * (/ 2 * A u j)).
  assert (D : forall c, t <= c <= t + h -> derivable_pt_lim phi c (dphi c)).
  { intros c Hc. unfold phi, dphi.
    replace (V c - ((1 - / 2) * V t + / 2 * V c) - (c - t) * (/ 2 * A c j)) with ((V c - 0) - ((1 - 0) * ((1 - / 2) * V t + / 2 * V c) + (c - t) * (0 + / 2 * A c j))) by ring.
    apply (derivable_pt_lim_minus (fun u => cmpR (X u) j - cmpR (X t) j) (fun u => (u - t) * ((1 - / 2) * V t + / 2 * V u))).
    - apply (derivable_pt_lim_minus (fun u => cmpR (X u) j) (fun _ => cmpR (X t) j)); [apply (proj2 (SO c Hc)); assumption|apply derivable_pt_lim_const].
    - apply (derivable_pt_lim_mult (fun u => u - t) (fun u => (1 - / 2) * V t + / 2 * V u)).
      + apply (derivable_pt_lim_minus (fun u => u) (fun _ => t)); [apply derivable_pt_lim_id|apply derivable_pt_lim_const].
      + apply (derivable_pt_lim_plus (fun _ => (1 - / 2) * V t) (fun u => / 2 * V u)); [apply derivable_pt_lim_const|].
        apply (derivable_pt_lim_scal V (/ 2) c (A c j)). apply DA; assumption. }
  destruct (MVT_cor2 phi dphi t (t + h)) as [c [E [C1 C2]]]; [lra|exact D|].
  destruct (MVT_cor2 V (fun u => A u j) t c) as [b [E2 [B1 B2]]]; [lra|intros u Hu; apply DA; [lra|assumption]|].
  assert (P0 : phi t = 0) by (unfold phi; ring). rewrite P0 in E.
  replace (cmpR (X (t + h)) j - cmpR (X t) j - h * ((1 - / 2) * cmpR (g t (X t)) j + / 2 * cmpR (g (t + h) (X (t + h))) j)) with (phi (t + h) - 0) by (unfold phi, V; ring).
  rewrite E. replace (dphi c) with (/ 2 * (c - t) * (A b j - A c j)).
  2:{ unfold dphi. transitivity (/ 2 * (V c - V t) - (c - t) * (/ 2 * A c j)); [rewrite E2; ring|field]. }
  replace (t + h - t) with h by ring. rewrite !Rabs_mult, (Rabs_right (/ 2)), (Rabs_right (c - t)), (Rabs_right h) by lra.
  pose proof (CA b c j ltac:(lra) ltac:(lra) Hj) as K. rewrite (Rabs_left1 (b - c)) in K by lra.
  assert (K2 : Rabs (A b j - A c j) <= M * h) by (eapply Rle_trans; [exact K|]; apply Rmult_le_compat_l; lra).
  pose proof (Rabs_pos (A b j - A c j)) as K3. assert (0 <= M * h) by (apply Rmult_le_pos; lra).
  replace (M * h * h * h) with (h * (M * h) * h) by ring. apply Rmult_le_compat_r; [lra|].
  apply Rmult_le_compat; [nra|assumption|nra|assumption].
Qed.

(** * Runs *)
Definition apath (n : nat) (g : R -> list R -> list R) (al h eps t0 : R) (z : nat -> list R) (count : nat) : Prop :=
  forall i, (i < count)%nat -> astep n g al h eps (t0 + INR i * h) (z i) (z (S i)).
Lemma lipschitz_run n g L al h e1 e2 t0 z y count d : 0 <= L -> lipschitz_x n L g -> 0 <= h -> 0 <= al <= 1 -> 2 * (h * al * L) <= 1 -> 0 <= e1 -> 0 <= e2 -> 0 <= d ->
  apath n g al h e1 t0 z count -> apath n g al h e2 t0 y count -> near n (z 0%nat) (y 0%nat) d ->
  near n (z count) (y count) (exp (INR count * (2 * L * h)) * (d + INR count * (2 * (e1 + e2)))).
Proof.
  intros HL LIP Hh Ha Hs E1 E2 Hd PZ PY N.
  set (e := fix e k := match k with O => d | S k => (1 + 2 * L * h) * e k + 2 * (e1 + e2) end).
  assert (HH : 0 <= 2 * L * h) by (assert (0 <= L * h) by (apply Rmult_le_pos; lra); lra).
  assert (G : forall k, (k <= count)%nat -> 0 <= e k /\ near n (z k) (y k) (e k)).
  { induction k as [|k IH]; intros Hk; [split; assumption|]. destruct IH as [P Q]; [lia|]. split; [simpl; nra|].
    apply (astep_spread n g L al h e1 e2 (t0 + INR k * h) (z k) (z (S k)) (y k) (y (S k)) (e k)); try assumption; [apply PZ; lia|apply PY; lia]. }
  destruct (G count (le_n _)) as [_ Q]. intros j Hj. eapply Rle_trans; [apply Q; assumption|].
  apply (gronwall e); [assumption|lra|exact Hd|]. intros i Hi. simpl. lra.
Qed.
