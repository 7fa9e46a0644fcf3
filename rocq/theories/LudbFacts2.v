(** LudbFacts2.v - rounding errors of the LU factorizer with gradual underflow: an absolute error beside the relative one. *)
From Coq Require Import List Arith Lia Bool ZArith QArith Qcanon Reals Lra.
From Flocq Require Import Core.
From Verif Require Import Base BaseFacts LUSpec LUModel ConvSpec ConvFacts ConvFacts3 StepSpec FpSpec LufModel LufSpec LufFacts LufFacts2 LufFacts3 LufFacts4.
Import ListNotations.
Local Open Scope R_scope.

Section Rnd.
Context (rnd : R -> R) (u eta : R).
Hypothesis RE : forall z, Rabs (rnd z - z) <= u * Rabs z + eta.
Hypothesis U0 : 0 <= u.
Hypothesis U1 : u <= / 2.
Hypothesis E0 : 0 <= eta.
Notation w := (/ (1 - u)).
Lemma aw1 : 1 <= w. Proof. rewrite <- Rinv_1 at 1. apply Rinv_le_contravar; lra. Qed.
Lemma aw2 : w <= 2. Proof. replace 2 with (/ / 2) by field. apply Rinv_le_contravar; lra. Qed.
Lemma agg_S m : gg u (S m) = (gg u m + u) * w. Proof. apply gg_S. lra. Qed.
Lemma auw : u * w <= 1. Proof. pose proof aw1. pose proof aw2. apply Rle_trans with (/ 2 * 2); [apply Rmult_le_compat; lra|lra]. Qed.
Lemma aback z : Rabs z <= (Rabs (rnd z) + eta) * w.
Proof.
  assert (H : (1 - u) * Rabs z <= Rabs (rnd z) + eta). { pose proof (RE z). pose proof (Rabs_triang (rnd z) (z - rnd z)) as T. replace (rnd z + (z - rnd z)) with z in T by ring. rewrite (Rabs_minus_sym z) in T. lra. }
  replace (Rabs z) with ((1 - u) * Rabs z * w) by (field; lra). apply Rmult_le_compat_r; [pose proof aw1; lra|exact H].
Qed.
Lemma aback_err z : Rabs (rnd z - z) <= u * ((Rabs (rnd z) + eta) * w) + eta.
Proof. eapply Rle_trans; [apply RE|]. apply Rplus_le_compat_r. apply Rmult_le_compat_l; [assumption|apply aback]. Qed.
Lemma aforth z : Rabs (rnd z) <= (1 + u) * Rabs z + eta.
Proof. pose proof (RE z). pose proof (Rabs_triang (rnd z - z) z) as T. replace (rnd z - z + z) with (rnd z) in T by ring. lra. Qed.
Lemma aone : 1 + u <= w.
Proof. apply Rmult_le_reg_r with (1 - u); [lra|]. rewrite Rinv_l by lra. assert (0 <= u * u) by (apply Rmult_le_pos; assumption). lra. Qed.

Lemma minus_errA (l m : nat -> R) v ks s : gg u (length ks) <= 1 -> s = minus_all (N:=FNum rnd) ks (fun k => rnd (l k * m k)) v ->
  Rabs (v - lsum (fun k => l k * m k) ks - s) <= gg u (length ks) * (lsum (fun k => Rabs (l k * m k)) ks + Rabs s) + INR (length ks) * (8 * eta).
Proof.
  revert s. induction ks as [|k ks I] using rev_ind; intros s GL Es.
  - subst s. simpl. replace (v - 0 - v) with 0 by ring. rewrite Rabs_R0. unfold gg. simpl. lra.
  - rewrite minus_snoc in Es. rewrite !lsum_snoc, app_length in *. simpl length in *. rewrite Nat.add_1_r in *. rewrite S_INR.
    assert (G0 : 0 <= gg u (length ks)) by (apply gg_pos; lra). assert (G1 : gg u (length ks) <= 1) by (eapply Rle_trans; [apply (gg_mono u U0 ltac:(lra) (length ks) (S (length ks))); lia|exact GL]).
    rewrite agg_S in GL |- *. specialize (I _ G1 eq_refl).
    set (t := minus_all (N:=FNum rnd) ks (fun k => rnd (l k * m k)) v) in *. change (nsub (FNum rnd) t (rnd (l k * m k))) with (rnd (t - rnd (l k * m k))) in Es.
    set (p := l k * m k) in *. set (S1 := lsum (fun k => l k * m k) ks) in *. set (S2 := lsum (fun k => Rabs (l k * m k)) ks) in *. set (g := gg u (length ks)) in *. set (K := INR (length ks)) in *.
    assert (S20 : 0 <= S2) by (apply lsum_nonneg; intros; apply Rabs_pos).
    pose proof (Rabs_pos p) as P0. pose proof (Rabs_pos s) as Q0. pose proof aw1. pose proof aw2. pose proof aone. pose proof auw.
    assert (E1 : Rabs (t - p - s) <= u * Rabs p + eta + (u * ((Rabs s + eta) * w) + eta)).
    { replace (t - p - s) with ((rnd p - p) + - (s - (t - rnd p))) by ring. eapply Rle_trans; [apply Rabs_triang|]. rewrite Rabs_Ropp. apply Rplus_le_compat; [apply RE|rewrite Es; apply aback_err]. }
    assert (E2 : Rabs t <= (Rabs s + eta) * w + ((1 + u) * Rabs p + eta)).
    { replace t with ((t - rnd p) + rnd p) by ring. eapply Rle_trans; [apply Rabs_triang|]. apply Rplus_le_compat; [rewrite Es; apply aback|apply aforth]. }
    assert (E3 : g * Rabs t <= g * ((Rabs s + eta) * w + ((1 + u) * Rabs p + eta))) by (apply Rmult_le_compat_l; assumption).
    replace (v - (S1 + p) - s) with ((v - S1 - t) + (t - p - s)) by ring. eapply Rle_trans; [apply Rabs_triang|].
    assert (A1 : g * S2 <= (g + u) * w * S2). { apply Rmult_le_compat_r; [assumption|]. rewrite <- (Rmult_1_r g) at 1. apply Rmult_le_compat; lra. }
    assert (A2 : (g * (1 + u) + u) * Rabs p <= (g + u) * w * Rabs p).
    { apply Rmult_le_compat_r; [assumption|]. replace ((g + u) * w) with (g * w + u * w) by ring. apply Rplus_le_compat; [apply Rmult_le_compat_l; assumption|]. rewrite <- (Rmult_1_r u) at 1. apply Rmult_le_compat_l; lra. }
    assert (A3 : g * (eta * w) <= 1 * (eta * 2)) by (apply Rmult_le_compat; [assumption|apply Rmult_le_pos; lra|assumption|apply Rmult_le_compat_l; lra]).
    assert (A4 : g * eta <= 1 * eta) by (apply Rmult_le_compat_r; assumption). assert (A5 : u * w * eta <= 1 * eta) by (apply Rmult_le_compat_r; assumption).
    eapply Rle_trans; [apply Rplus_le_compat; [exact I|exact E1]|].
    match goal with |- ?A <= ?B => assert (X : A = g * S2 + g * Rabs t + u * Rabs p + u * w * Rabs s + u * w * eta + 2 * eta + K * (8 * eta)) by ring; rewrite X; clear X end.
    match goal with |- _ <= ?B => replace B with ((g + u) * w * S2 + (g + u) * w * Rabs p + (g * (Rabs s * w) + u * w * Rabs s) + K * (8 * eta) + 8 * eta) by ring end.
    replace (g * ((Rabs s + eta) * w + ((1 + u) * Rabs p + eta))) with (g * (Rabs s * w) + g * (eta * w) + g * (1 + u) * Rabs p + g * eta) in E3 by ring.
    replace ((g * (1 + u) + u) * Rabs p) with (g * (1 + u) * Rabs p + u * Rabs p) in A2 by ring. lra.
Qed.
Lemma div_errA (l m : nat -> R) v ks d q : gg u (S (length ks)) <= 1 -> d <> 0 -> q = rnd (minus_all (N:=FNum rnd) ks (fun k => rnd (l k * m k)) v / d) ->
  Rabs (v - lsum (fun k => l k * m k) ks - q * d) <= gg u (S (length ks)) * (lsum (fun k => Rabs (l k * m k)) ks + Rabs (q * d)) + INR (length ks) * (8 * eta) + 4 * eta * Rabs d.
Proof.
  intros GL D0 Eq. assert (G0 : 0 <= gg u (length ks)) by (apply gg_pos; lra). assert (G1 : gg u (length ks) <= 1) by (eapply Rle_trans; [apply (gg_mono u U0 ltac:(lra) (length ks) (S (length ks))); lia|exact GL]).
  pose proof (minus_errA l m v ks _ G1 eq_refl) as I. set (s := minus_all (N:=FNum rnd) ks (fun k => rnd (l k * m k)) v) in *.
  set (S1 := lsum (fun k => l k * m k) ks) in *. set (S2 := lsum (fun k => Rabs (l k * m k)) ks) in *. rewrite agg_S in GL |- *. set (g := gg u (length ks)) in *. set (K := INR (length ks)) in *.
  assert (S20 : 0 <= S2) by (apply lsum_nonneg; intros; apply Rabs_pos). pose proof aw1. pose proof aw2. pose proof auw. pose proof (Rabs_pos d) as DP.
  assert (SD : Rabs (s / d) * Rabs d = Rabs s). { rewrite <- Rabs_mult. f_equal. field. assumption. }
  assert (E1 : Rabs (s - q * d) <= u * Rabs s + eta * Rabs d).
  { replace (s - q * d) with (- ((q - s / d) * d)) by (field; assumption). rewrite Rabs_Ropp, Rabs_mult. apply Rle_trans with ((u * Rabs (s / d) + eta) * Rabs d).
    - apply Rmult_le_compat_r; [assumption|]. rewrite Eq. apply RE.
    - right. rewrite <- SD. ring. }
  assert (E2 : Rabs s <= (Rabs (q * d) + eta * Rabs d) * w).
  { rewrite <- SD. rewrite Rabs_mult. pose proof (aback (s / d)) as B. rewrite <- Eq in B.
    replace ((Rabs q * Rabs d + eta * Rabs d) * w) with ((Rabs q + eta) * w * Rabs d) by ring. apply Rmult_le_compat_r; assumption. }
  replace (v - S1 - q * d) with ((v - S1 - s) + (s - q * d)) by ring. eapply Rle_trans; [apply Rabs_triang|].
  assert (A1 : g * S2 <= (g + u) * w * S2). { apply Rmult_le_compat_r; [assumption|]. rewrite <- (Rmult_1_r g) at 1. apply Rmult_le_compat; lra. }
  assert (A2 : (g + u) * Rabs s <= (g + u) * ((Rabs (q * d) + eta * Rabs d) * w)) by (apply Rmult_le_compat_l; lra).
  assert (ED : 0 <= eta * Rabs d) by (apply Rmult_le_pos; assumption).
  assert (A3 : (g + u) * w * (eta * Rabs d) <= 1 * (eta * Rabs d)) by (apply Rmult_le_compat_r; assumption).
  replace ((g + u) * ((Rabs (q * d) + eta * Rabs d) * w)) with ((g + u) * w * Rabs (q * d) + (g + u) * w * (eta * Rabs d)) in A2 by ring.
  replace ((g + u) * w * (S2 + Rabs (q * d))) with ((g + u) * w * S2 + (g + u) * w * Rabs (q * d)) by ring.
  replace (g * (S2 + Rabs s)) with (g * S2 + g * Rabs s) in I by ring. lra.
Qed.
Section Err.
Context (n : nat) (e : entriesN (FNum rnd)) (L U : nat -> nat -> R).
Hypothesis OUT : forall r c, (r < n)%nat -> (c < n)%nat -> sky e r c = false -> ((c < r)%nat -> L r c = 0) /\ ((r <= c)%nat -> U r c = 0).
Hypothesis DO : doolittle e n L U.
Hypothesis PIV : forall c, (c < n)%nat -> U c c <> 0.
Notation G := (gg u n).
Hypothesis G1 : G <= 1.
Notation N8 := (INR n * (8 * eta)).
Lemma AG0 : 0 <= G. Proof. apply gg_pos; lra. Qed.
Lemma gg_le1 k : (k <= n)%nat -> gg u k <= 1. Proof. intros H. eapply Rle_trans; [apply (gg_mono u U0 ltac:(lra) k n H)|exact G1]. Qed.
Lemma n8_le k : (k <= n)%nat -> INR k * (8 * eta) <= N8. Proof. intros H. apply Rmult_le_compat_r; [lra|apply le_INR; exact H]. Qed.
Lemma product_errA r c : (r < n)%nat -> (c < n)%nat ->
  Rabs (rsum n (fun k => lowR L r k * uppR U k c) - mvalN e r c) <= G * rsum n (fun k => Rabs (lowR L r k) * Rabs (uppR U k c)) + N8 + 4 * eta * Rabs (U c c).
Proof.
  intros Hr Hc. pose proof AG0 as HG. rewrite (rsum_ext n (fun k => Rabs (lowR L r k) * Rabs (uppR U k c)) (fun k => Rabs (lowR L r k * uppR U k c))) by (intros; symmetry; apply Rabs_mult).
  assert (ED : 0 <= 4 * eta * Rabs (U c c)) by (apply Rmult_le_pos; [lra|apply Rabs_pos]).
  destruct (sky e r c) eqn:SK.
  - destruct (Nat.lt_ge_cases c r) as [LT|GE].
    + assert (CUT : forall F, F 0 = 0 -> rsum n (fun k => F (lowR L r k * uppR U k c)) = rsum c (fun k => F (lowR L r k * uppR U k c)) + F (L r c * U c c)).
      { intros F F0. rewrite (rsum_cut n (S c)); [|lia|intros k Hk; rewrite (upp_gt U k c), Rmult_0_r by lia; assumption]. simpl. rewrite low_lt, upp_le by lia. reflexivity. }
      rewrite (CUT (fun z => z) eq_refl), (CUT Rabs Rabs_R0). pose proof (proj1 DO r c ltac:(lia) SK) as Q.
      set (ks := filter (fun k => sky e r k && sky e k c) (seq 0 c)) in Q.
      assert (FL : (length ks <= c)%nat). { pose proof (filter_length_le (fun k => sky e r k && sky e k c) (seq 0 c)) as FL. rewrite seq_length in FL. exact FL. }
      pose proof (div_errA (L r) (fun k => U k c) (mvalN e r c) ks (U c c) (L r c) (gg_le1 (S (length ks)) ltac:(lia)) (PIV c Hc) Q) as D.
      pose proof (n8_le (length ks) ltac:(lia)) as N1. pose proof (gg_mono u U0 ltac:(lra) (S (length ks)) n ltac:(lia)) as M1. set (kl := length ks) in *. unfold ks in D; cbn beta in D.
      rewrite (terms rnd n e L U OUT (fun z => z) r c c eq_refl Hr Hc ltac:(lia) ltac:(lia)), (terms rnd n e L U OUT Rabs r c c Rabs_R0 Hr Hc ltac:(lia) ltac:(lia)) in D.
      rewrite Rabs_minus_sym. match goal with |- Rabs (?a - (?b + ?d)) <= _ => replace (a - (b + d)) with (a - b - d) by ring end. eapply Rle_trans; [exact D|].
      apply Rplus_le_compat_r. apply Rplus_le_compat; [|exact N1].
      apply Rmult_le_compat_r; [apply Rplus_le_le_0_compat; [apply rsum_nonneg; intros; apply Rabs_pos|apply Rabs_pos]|]. exact M1.
    + assert (CUT : forall F, F 0 = 0 -> rsum n (fun k => F (lowR L r k * uppR U k c)) = rsum r (fun k => F (lowR L r k * uppR U k c)) + F (U r c)).
      { intros F F0. rewrite (rsum_cut n (S r)); [|lia|intros k Hk; rewrite (low_gt L r k), Rmult_0_l by lia; assumption]. simpl. rewrite low_eq, upp_le, Rmult_1_l by lia. reflexivity. }
      rewrite (CUT (fun z => z) eq_refl), (CUT Rabs Rabs_R0). pose proof (proj2 DO r c ltac:(lia) SK) as Q.
      set (ks := filter (fun k => sky e r k && sky e k c) (seq 0 r)) in Q.
      assert (FL : (length ks <= r)%nat). { pose proof (filter_length_le (fun k => sky e r k && sky e k c) (seq 0 r)) as FL. rewrite seq_length in FL. exact FL. }
      pose proof (minus_errA (L r) (fun k => U k c) (mvalN e r c) ks (U r c) (gg_le1 (length ks) ltac:(lia)) Q) as D.
      pose proof (n8_le (length ks) ltac:(lia)) as N1. pose proof (gg_mono u U0 ltac:(lra) (length ks) n ltac:(lia)) as M1. set (kl := length ks) in *. unfold ks in D; cbn beta in D.
      rewrite (terms rnd n e L U OUT (fun z => z) r c r eq_refl Hr Hc ltac:(lia) ltac:(lia)), (terms rnd n e L U OUT Rabs r c r Rabs_R0 Hr Hc ltac:(lia) ltac:(lia)) in D.
      rewrite Rabs_minus_sym. match goal with |- Rabs (?a - (?b + ?d)) <= _ => replace (a - (b + d)) with (a - b - d) by ring end. eapply Rle_trans; [exact D|].
      match goal with |- _ <= ?a + ?b + ?c => apply Rle_trans with (a + b); [|lra] end. apply Rplus_le_compat; [|exact N1].
      apply Rmult_le_compat_r; [apply Rplus_le_le_0_compat; [apply rsum_nonneg; intros; apply Rabs_pos|apply Rabs_pos]|]. exact M1.
  - assert (Z : rsum n (fun k => lowR L r k * uppR U k c) = 0).
    { apply LufFacts4.rsum_zero. intros k Hk. destruct (Nat.lt_ge_cases c r) as [LT|GE].
      - destruct (Nat.le_gt_cases k c) as [KC|KC]; [|rewrite upp_gt by assumption; ring]. rewrite low_lt by lia. rewrite (proj1 (OUT r k Hr Hk (sky_row rnd e r c k ltac:(lia) SK)) ltac:(lia)). ring.
      - destruct (Nat.le_gt_cases k r) as [KR|KR]; [|rewrite low_gt by assumption; ring]. rewrite upp_le by lia. rewrite (proj2 (OUT k c Hk Hc (sky_col rnd e r c k ltac:(lia) SK)) ltac:(lia)). ring. }
    assert (M : mvalN e r c = 0). { apply (mval_notinN e). intros S. apply LufFacts4.sky_stored in S. congruence. }
    rewrite Z. change (mvalN e r c) with (mvalN e r c : R). rewrite M, Rminus_0_r, Rabs_R0. pose proof (n8_le 0 ltac:(lia)) as N0. simpl INR in N0.
    assert (0 <= G * rsum n (fun k => Rabs (lowR L r k * uppR U k c))) by (apply Rmult_le_pos; [assumption|apply rsum_nonneg; intros; apply Rabs_pos]). lra.
Qed.
Hypothesis CO : coversN e n.
Section Solve.
Context (b y x : nat -> R).
Hypothesis SU : substituted e n L U b y x.
Lemma forward_errA r : (r < n)%nat -> Rabs (b r - rsum n (fun k => lowR L r k * y k)) <= G * rsum n (fun k => Rabs (lowR L r k) * Rabs (y k)) + N8.
Proof.
  intros Hr. rewrite (rsum_ext n (fun k => Rabs (lowR L r k) * Rabs (y k)) (fun k => Rabs (lowR L r k * y k))) by (intros; symmetry; apply Rabs_mult).
  assert (CUT : forall F, F 0 = 0 -> rsum n (fun k => F (lowR L r k * y k)) = lsum (fun k => F (L r k * y k)) (filter (sky e r) (seq 0 r)) + F (y r)).
  { intros F F0. rewrite (rsum_cut n (S r)); [|lia|intros k Hk; rewrite (low_gt L r k), Rmult_0_l by lia; assumption]. simpl. rewrite low_eq, Rmult_1_l. f_equal.
    rewrite lsum_filter; [rewrite lsum_seq; apply rsum_ext; intros k Hk; rewrite low_lt by lia; reflexivity|].
    intros k Hk E. apply in_seq in Hk. rewrite (proj1 (OUT r k Hr ltac:(lia) E) ltac:(lia)), Rmult_0_l. assumption. }
  rewrite (CUT (fun z => z) eq_refl), (CUT Rabs Rabs_R0). pose proof (proj1 SU r Hr) as Q. set (ks := filter (sky e r) (seq 0 r)) in *.
  assert (FL : (length ks <= r)%nat). { pose proof (filter_length_le (sky e r) (seq 0 r)) as FL. rewrite seq_length in FL. exact FL. }
  pose proof (minus_errA (L r) y (b r) ks (y r) (gg_le1 (length ks) ltac:(lia)) Q) as D.
  match goal with |- Rabs (?a - (?b + ?d)) <= _ => replace (a - (b + d)) with (a - b - d) by ring end. eapply Rle_trans; [exact D|].
  apply Rplus_le_compat; [|apply n8_le; lia].
  apply Rmult_le_compat_r; [apply Rplus_le_le_0_compat; [apply lsum_nonneg; intros; apply Rabs_pos|apply Rabs_pos]|]. apply gg_mono; [assumption|lra|lia].
Qed.
Lemma backward_errA r : (r < n)%nat -> Rabs (y r - rsum n (fun k => uppR U r k * x k)) <= G * rsum n (fun k => Rabs (uppR U r k) * Rabs (x k)) + (N8 + 4 * eta * Rabs (U r r)).
Proof.
  intros Hr. rewrite (rsum_ext n (fun k => Rabs (uppR U r k) * Rabs (x k)) (fun k => Rabs (uppR U r k * x k))) by (intros; symmetry; apply Rabs_mult).
  set (ks := filter (fun k => sky e r k && reaches e r k) (seq (S r) (n - S r))).
  assert (CUT : forall F, F 0 = 0 -> rsum n (fun k => F (uppR U r k * x k)) = lsum (fun k => F (U r k * x k)) ks + F (x r * U r r)).
  { intros F F0. rewrite (rsum_split n r) by assumption. rewrite LufFacts4.rsum_zero by (intros k Hk; rewrite upp_gt, Rmult_0_l by assumption; assumption). rewrite (upp_le U r r) by lia. rewrite (Rmult_comm (U r r)).
    unfold ks. rewrite lsum_filter.
    - rewrite (lsum_ext (fun k => F (uppR U r k * x k)) (fun k => F (U r k * x k))); [ring|]. intros k Hk. apply in_seq in Hk. rewrite upp_le by lia. reflexivity.
    - intros k Hk E. apply in_seq in Hk. assert (SK : sky e r k = false). { destruct (sky e r k) eqn:K; [|reflexivity]. rewrite (sky_reaches rnd n e CO r k ltac:(lia) K) in E. discriminate E. }
      rewrite (proj2 (OUT r k Hr ltac:(lia) SK) ltac:(lia)), Rmult_0_l. assumption. }
  rewrite (CUT (fun z => z) eq_refl), (CUT Rabs Rabs_R0). pose proof (proj2 SU r Hr) as Q. fold ks in Q.
  assert (FL : (length ks <= n - S r)%nat). { pose proof (filter_length_le (fun k => sky e r k && reaches e r k) (seq (S r) (n - S r))) as FL. rewrite seq_length in FL. exact FL. }
  pose proof (div_errA (U r) x (y r) ks (U r r) (x r) (gg_le1 (S (length ks)) ltac:(lia)) (PIV r Hr) Q) as D.
  match goal with |- Rabs (?a - (?b + ?d)) <= _ => replace (a - (b + d)) with (a - b - d) by ring end. eapply Rle_trans; [exact D|]. rewrite <- Rplus_assoc.
  apply Rplus_le_compat_r. apply Rplus_le_compat; [|apply n8_le; lia].
  apply Rmult_le_compat_r; [apply Rplus_le_le_0_compat; [apply lsum_nonneg; intros; apply Rabs_pos|apply Rabs_pos]|]. apply gg_mono; [assumption|lra|lia].
Qed.
Notation B k := (N8 + 4 * eta * Rabs (U k k)).
Lemma residual_errA r : (r < n)%nat -> Rabs (rsum n (fun c => mvalN e r c * x c) - b r) <= (3 * G + G * G) * rsum n (fun k => Rabs (lowR L r k) * rsum n (fun c => Rabs (uppR U k c) * Rabs (x c))) +
  (rsum n (fun k => B k * Rabs (x k)) + 2 * rsum n (fun k => Rabs (lowR L r k) * B k) + N8).
Proof.
  intros Hr. pose proof AG0 as HG. set (Vk := fun k => rsum n (fun c => Rabs (uppR U k c) * Rabs (x c))). set (W := rsum n (fun k => Rabs (lowR L r k) * Vk k)).
  set (ux := fun k => rsum n (fun c => uppR U k c * x c)).
  assert (V0 : forall k, 0 <= Vk k) by (intros k; apply rsum_nonneg; intros; apply Rmult_le_pos; apply Rabs_pos).
  assert (N0 : 0 <= N8) by (apply Rmult_le_pos; [apply pos_INR|lra]).
  assert (B0 : forall k, 0 <= B k). { intros k. assert (0 <= 4 * eta * Rabs (U k k)) by (apply Rmult_le_pos; [lra|apply Rabs_pos]). lra. }
  assert (E1 : Rabs (rsum n (fun c => mvalN e r c * x c) - rsum n (fun k => lowR L r k * ux k)) <= G * W + rsum n (fun k => B k * Rabs (x k))).
  { assert (X : rsum n (fun k => lowR L r k * ux k) = rsum n (fun c => rsum n (fun k => lowR L r k * uppR U k c) * x c)).
    { unfold ux. transitivity (rsum n (fun k => rsum n (fun c => lowR L r k * (uppR U k c * x c)))); [apply rsum_ext; intros; apply rsum_mulr|]. rewrite rsum_swap. apply rsum_ext. intros c Hc.
      rewrite rsum_mult. apply rsum_ext. intros. ring. }
    rewrite X, rsum_minus. eapply Rle_trans; [apply rsum_abs|].
    apply Rle_trans with (rsum n (fun c => G * rsum n (fun k => Rabs (lowR L r k) * Rabs (uppR U k c)) * Rabs (x c) + B c * Rabs (x c))).
    - apply rsum_le. intros c Hc. rewrite <- Rmult_minus_distr_r, Rabs_mult, <- Rmult_plus_distr_r. apply Rmult_le_compat_r; [apply Rabs_pos|]. rewrite Rabs_minus_sym. rewrite <- Rplus_assoc. apply product_errA; assumption.
    - rewrite <- rsum_addf. apply Rplus_le_compat_r. right. unfold W, Vk. rewrite rsum_mulr. transitivity (rsum n (fun c => rsum n (fun k => G * (Rabs (lowR L r k) * (Rabs (uppR U k c) * Rabs (x c)))))).
      + apply rsum_ext. intros c Hc. rewrite Rmult_assoc, rsum_mult, rsum_mulr. apply rsum_ext. intros. ring.
      + rewrite rsum_swap. apply rsum_ext. intros k Hk. rewrite <- rsum_mulr. f_equal. symmetry. apply rsum_mulr. }
  set (LB := rsum n (fun k => Rabs (lowR L r k) * B k)). assert (LB0 : 0 <= LB) by (apply rsum_nonneg; intros; apply Rmult_le_pos; [apply Rabs_pos|apply B0]).
  assert (E2 : Rabs (rsum n (fun k => lowR L r k * ux k) - rsum n (fun k => lowR L r k * y k)) <= G * W + LB).
  { rewrite rsum_minus. eapply Rle_trans; [apply rsum_abs|]. unfold W, LB. rewrite rsum_mulr, rsum_addf. apply rsum_le. intros k Hk. rewrite <- Rmult_minus_distr_l, Rabs_mult.
    replace (G * (Rabs (lowR L r k) * Vk k) + Rabs (lowR L r k) * B k) with (Rabs (lowR L r k) * (G * Vk k + B k)) by ring. apply Rmult_le_compat_l; [apply Rabs_pos|]. rewrite Rabs_minus_sym. apply backward_errA. assumption. }
  assert (E3 : Rabs (rsum n (fun k => lowR L r k * y k) - b r) <= G * ((1 + G) * W + LB) + N8).
  { rewrite Rabs_minus_sym. eapply Rle_trans; [apply forward_errA; assumption|]. apply Rplus_le_compat_r. apply Rmult_le_compat_l; [assumption|]. unfold W, LB. rewrite rsum_mulr, rsum_addf. apply rsum_le. intros k Hk.
    replace ((1 + G) * (Rabs (lowR L r k) * Vk k) + Rabs (lowR L r k) * B k) with (Rabs (lowR L r k) * ((1 + G) * Vk k + B k)) by ring. apply Rmult_le_compat_l; [apply Rabs_pos|].
    replace (y k) with ((y k - ux k) + ux k) by ring. eapply Rle_trans; [apply Rabs_triang|]. replace ((1 + G) * Vk k + B k) with (G * Vk k + B k + Vk k) by ring. apply Rplus_le_compat; [apply backward_errA; assumption|].
    unfold ux, Vk. eapply Rle_trans; [apply rsum_abs|]. right. apply rsum_ext. intros. apply Rabs_mult. }
  assert (GL : G * LB <= 1 * LB) by (apply Rmult_le_compat_r; assumption).
  match goal with |- Rabs (?a - ?b) <= _ => replace (a - b) with ((a - rsum n (fun k => lowR L r k * ux k)) + (rsum n (fun k => lowR L r k * ux k) - rsum n (fun k => lowR L r k * y k)) + (rsum n (fun k => lowR L r k * y k) - b)) by ring end.
  eapply Rle_trans; [apply Rabs_triang|]. eapply Rle_trans; [apply Rplus_le_compat_r; apply Rabs_triang|]. change (rsum n (fun k => Rabs (lowR L r k) * rsum n (fun c => Rabs (uppR U k c) * Rabs (x c)))) with W. fold LB.
  replace ((3 * G + G * G) * W) with (G * W + G * W + G * ((1 + G) * W)) by ring. lra.
Qed.
End Solve.
End Err.
End Rnd.
