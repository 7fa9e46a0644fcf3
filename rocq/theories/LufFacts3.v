(** LufFacts3.v - rounding errors of the decomposition and the substitutions. *)
From Coq Require Import List Arith Lia Bool ZArith QArith Qcanon Reals Lra.
From Flocq Require Import Core Relative.
From Verif Require Import Base BaseFacts LUSpec LUModel ConvSpec ConvFacts StepSpec FpSpec LufModel LufSpec LufFacts LufFacts2.
Import ListNotations.
Local Open Scope R_scope.

Definition gg (u : R) (m : nat) : R := (/ (1 - u)) ^ m - 1.
Definition lsum (f : nat -> R) (ks : list nat) : R := fold_right (fun k s => f k + s) 0 ks.
Lemma lsum_app f a b : lsum f (a ++ b) = lsum f a + lsum f b.
Proof. induction a as [|x a I]; [unfold lsum at 2; simpl; ring|]. simpl. rewrite I. ring. Qed.
Lemma lsum_snoc f a k : lsum f (a ++ [k]) = lsum f a + f k.
Proof. rewrite lsum_app. simpl. ring. Qed.
Lemma lsum_nonneg f ks : (forall k, 0 <= f k) -> 0 <= lsum f ks.
Proof. intros H. induction ks as [|k ks I]; simpl; [lra|]. specialize (H k). lra. Qed.
Lemma lsum_filter (P : nat -> bool) f ks : (forall k, In k ks -> P k = false -> f k = 0) -> lsum f (filter P ks) = lsum f ks.
Proof.
  induction ks as [|k ks I]; intros H; [reflexivity|]. simpl. destruct (P k) eqn:E; simpl; rewrite I by (intros; apply H; [right; assumption|assumption]); [reflexivity|].
  rewrite (H k (or_introl eq_refl) E). ring.
Qed.
Lemma lsum_seq f m : lsum f (seq 0 m) = rsum m f.
Proof. induction m as [|m I]; [reflexivity|]. rewrite seq_S, lsum_snoc, I. simpl. reflexivity. Qed.
Lemma lsum_ext f g ks : (forall k, In k ks -> f k = g k) -> lsum f ks = lsum g ks.
Proof. induction ks as [|k ks I]; intros H; [reflexivity|]. simpl. rewrite (H k), I; [reflexivity| |left; reflexivity]. intros; apply H; right; assumption. Qed.
Lemma lsum_zero f ks : (forall k, In k ks -> f k = 0) -> lsum f ks = 0.
Proof. induction ks as [|k ks I]; intros H; [reflexivity|]. simpl. rewrite (H k), I; [ring| |left; reflexivity]. intros; apply H; right; assumption. Qed.

Section Rnd.
Context (rnd : R -> R) (u : R).
Hypothesis RE : relative rnd u.
Hypothesis U0 : 0 <= u.
Hypothesis U1 : u < 1.
Notation w := (/ (1 - u)).
Lemma w1 : 1 <= w. Proof. rewrite <- Rinv_1 at 1. apply Rinv_le_contravar; lra. Qed.
Lemma w_eq x : (x + u) * w = (x + 1) * w - 1. Proof. field. lra. Qed.
Lemma gg_pos m : 0 <= gg u m. Proof. unfold gg. pose proof (pow_R1_Rle w m w1). lra. Qed.
Lemma gg_S m : gg u (S m) = (gg u m + u) * w. Proof. unfold gg. simpl. rewrite w_eq. ring. Qed.
Lemma gg_mono m k : (m <= k)%nat -> gg u m <= gg u k. Proof. intros H. unfold gg. pose proof (Rle_pow w m k w1 H). lra. Qed.
Lemma back z : Rabs z <= Rabs (rnd z) * w.
Proof.
  apply Rmult_le_reg_r with (1 - u); [lra|]. rewrite Rmult_assoc, Rinv_l, Rmult_1_r by lra. pose proof (RE z). pose proof (Rabs_triang_inv z (rnd z)). rewrite Rabs_minus_sym in H.
  pose proof (Rabs_pos z). lra.
Qed.
Lemma back_err z : Rabs (rnd z - z) <= u * w * Rabs (rnd z).
Proof. eapply Rle_trans; [apply RE|]. rewrite Rmult_assoc, (Rmult_comm w). apply Rmult_le_compat_l; [assumption|apply back]. Qed.
Lemma forth z : Rabs (rnd z) <= (1 + u) * Rabs z.
Proof. pose proof (RE z). pose proof (Rabs_triang_inv (rnd z) z). lra. Qed.
Lemma one_plus : 1 + u <= w.
Proof. apply Rmult_le_reg_r with (1 - u); [lra|]. rewrite Rinv_l by lra. assert (0 <= u * u) by (apply Rmult_le_pos; assumption). lra. Qed.
Lemma uw : u <= u * w. Proof. rewrite <- (Rmult_1_r u) at 1. apply Rmult_le_compat_l; [assumption|apply w1]. Qed.

Lemma minus_err (l m : nat -> R) v ks : let s := minus_all (N:=FNum rnd) ks (fun k => rnd (l k * m k)) v in
  Rabs (v - lsum (fun k => l k * m k) ks - s) <= gg u (length ks) * (lsum (fun k => Rabs (l k * m k)) ks + Rabs s).
Proof.
  induction ks as [|k ks I] using rev_ind; intros s.
  - subst s. simpl. replace (v - 0 - v) with 0 by ring. rewrite Rabs_R0. unfold gg. simpl. lra.
  - subst s. rewrite minus_snoc, !lsum_snoc, app_length. simpl length. rewrite Nat.add_1_r, gg_S. cbn zeta in I.
    set (s := minus_all (N:=FNum rnd) ks (fun k => rnd (l k * m k)) v) in *. change (nsub (FNum rnd) s (rnd (l k * m k))) with (rnd (s - rnd (l k * m k))).
    set (p := l k * m k). set (s' := rnd (s - rnd p)). set (S1 := lsum (fun k => l k * m k) ks) in *. set (S2 := lsum (fun k => Rabs (l k * m k)) ks) in *. set (g := gg u (length ks)) in *.
    assert (G0 : 0 <= g) by apply gg_pos. assert (S20 : 0 <= S2) by (apply lsum_nonneg; intros; apply Rabs_pos).
    pose proof (Rabs_pos p). pose proof (Rabs_pos s'). pose proof w1. pose proof one_plus. pose proof uw.
    assert (E1 : Rabs (s - p - s') <= u * Rabs p + u * w * Rabs s').
    { replace (s - p - s') with ((rnd p - p) + - (s' - (s - rnd p))) by ring. eapply Rle_trans; [apply Rabs_triang|]. rewrite Rabs_Ropp. apply Rplus_le_compat; [apply RE|apply back_err]. }
    assert (E2 : Rabs s <= Rabs s' * w + (1 + u) * Rabs p).
    { replace s with ((s - rnd p) + rnd p) by ring. eapply Rle_trans; [apply Rabs_triang|]. apply Rplus_le_compat; [apply back|apply forth]. }
    replace (v - (S1 + p) - s') with ((v - S1 - s) + (s - p - s')) by ring. eapply Rle_trans; [apply Rabs_triang|].
    apply Rle_trans with (g * (S2 + (Rabs s' * w + (1 + u) * Rabs p)) + (u * Rabs p + u * w * Rabs s')).
    + apply Rplus_le_compat; [|exact E1]. eapply Rle_trans; [exact I|]. apply Rmult_le_compat_l; [assumption|]. lra.
    + assert (A1 : g * S2 <= (g + u) * w * S2). { apply Rmult_le_compat_r; [assumption|]. rewrite <- (Rmult_1_r g) at 1. apply Rmult_le_compat; lra. }
      assert (A2 : (g * (1 + u) + u) * Rabs p <= (g + u) * w * Rabs p).
      { apply Rmult_le_compat_r; [assumption|]. replace ((g + u) * w) with (g * w + u * w) by ring. apply Rplus_le_compat; [apply Rmult_le_compat_l; assumption|assumption]. }
      replace (g * (S2 + (Rabs s' * w + (1 + u) * Rabs p)) + (u * Rabs p + u * w * Rabs s')) with (g * S2 + (g * (1 + u) + u) * Rabs p + (g + u) * w * Rabs s') by ring.
      replace ((g + u) * w * (S2 + Rabs p + Rabs s')) with ((g + u) * w * S2 + (g + u) * w * Rabs p + (g + u) * w * Rabs s') by ring. lra.
Qed.
Lemma div_err (l m : nat -> R) v ks d q : d <> 0 -> q = rnd (minus_all (N:=FNum rnd) ks (fun k => rnd (l k * m k)) v / d) ->
  Rabs (v - lsum (fun k => l k * m k) ks - q * d) <= gg u (S (length ks)) * (lsum (fun k => Rabs (l k * m k)) ks + Rabs (q * d)).
Proof.
  intros D0 Eq. pose proof (minus_err l m v ks) as I. cbn zeta in I. set (s := minus_all (N:=FNum rnd) ks (fun k => rnd (l k * m k)) v) in *.
  set (S1 := lsum (fun k => l k * m k) ks) in *. set (S2 := lsum (fun k => Rabs (l k * m k)) ks) in *. rewrite gg_S. set (g := gg u (length ks)) in *.
  assert (G0 : 0 <= g) by apply gg_pos. assert (S20 : 0 <= S2) by (apply lsum_nonneg; intros; apply Rabs_pos). pose proof w1. pose proof (Rabs_pos d).
  assert (E1 : Rabs (s - q * d) <= u * Rabs s).
  { replace (s - q * d) with (- ((q - s / d) * d)) by (field; assumption). rewrite Rabs_Ropp, Rabs_mult. apply Rle_trans with (u * Rabs (s / d) * Rabs d).
    - apply Rmult_le_compat_r; [assumption|]. rewrite Eq. apply RE.
    - right. rewrite Rmult_assoc, <- Rabs_mult. do 2 f_equal. field. assumption. }
  assert (E2 : Rabs s <= Rabs (q * d) * w).
  { replace s with (s / d * d) at 1 by (field; assumption). rewrite !Rabs_mult. pose proof (back (s / d)) as B. rewrite <- Eq in B.
    replace (Rabs q * Rabs d * w) with (Rabs q * w * Rabs d) by ring. apply Rmult_le_compat_r; assumption. }
  replace (v - S1 - q * d) with ((v - S1 - s) + (s - q * d)) by ring. eapply Rle_trans; [apply Rabs_triang|].
  assert (A1 : g * S2 <= (g + u) * w * S2). { apply Rmult_le_compat_r; [assumption|]. rewrite <- (Rmult_1_r g) at 1. apply Rmult_le_compat; lra. }
  assert (A2 : (g + u) * Rabs s <= (g + u) * (Rabs (q * d) * w)) by (apply Rmult_le_compat_l; lra).
  replace ((g + u) * w * (S2 + Rabs (q * d))) with ((g + u) * w * S2 + (g + u) * (Rabs (q * d) * w)) by ring.
  replace (g * (S2 + Rabs s)) with (g * S2 + g * Rabs s) in I by ring. lra.
Qed.
End Rnd.

Lemma bernoulli u m : 0 <= u <= 1 -> INR m * u <= 1 -> 1 - INR m * u <= (1 - u) ^ m.
Proof.
  intros U. induction m as [|m I]; intros H; [simpl; lra|]. rewrite S_INR in *. simpl. assert (0 <= INR m * u) by (apply Rmult_le_pos; [apply pos_INR|lra]). assert (H1 : INR m * u <= 1) by lra.
  specialize (I H1). apply Rle_trans with ((1 - u) * (1 - INR m * u)); [|apply Rmult_le_compat_l; lra].
  assert (0 <= u * (INR m * u)) by (apply Rmult_le_pos; lra). lra.
Qed.
Lemma gg_gam u m : 0 <= u -> u < 1 -> INR m * u < 1 -> gg u m <= gam m u.
Proof.
  intros U0 U1 H. unfold gg, gam. pose proof (bernoulli u m ltac:(lra) ltac:(lra)) as B. replace (INR m * u / (1 - INR m * u)) with (/ (1 - INR m * u) - 1) by (field; lra).
  apply Rplus_le_compat_r. rewrite pow_inv. apply Rinv_le_contravar; [lra|assumption].
Qed.
