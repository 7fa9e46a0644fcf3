(** FpFacts2.v - rounding errors of one step: the step in rounded arithmetic against the exact step from the same state. *)
From Coq Require Import List Arith Lia Bool ZArith QArith Qcanon Reals Lra Psatz.
From Verif Require Import Base BaseFacts VecModel VOps NewtFacts NewtFacts4 RkModel RkSpec RkFacts RkFacts2 RkFacts3 StepModel StepSpec ConvSpec ConvFacts ConvFacts2 ConvFacts3 ConvFacts4 ConvFacts5 FpSpec FpFacts.
Import ListNotations.
Local Open Scope R_scope.

Lemma mul_le a b c d : 0 <= a -> 0 <= c -> a <= b -> c <= d -> a * c <= b * d.
Proof. intros. apply Rmult_le_compat; assumption. Qed.
Lemma tri3 a b c x y : Rabs (a - b) <= x -> Rabs (b - c) <= y -> Rabs (a - c) <= x + y.
Proof. intros H1 H2. replace (a - c) with ((a - b) + (b - c)) by ring. eapply Rle_trans; [apply Rabs_triang|]. lra. Qed.
Lemma abs_from a b x y : Rabs (a - b) <= x -> Rabs b <= y -> Rabs a <= x + y.
Proof. intros H1 H2. replace a with ((a - b) + b) by ring. eapply Rle_trans; [apply Rabs_triang|]. lra. Qed.
Lemma abs_mul a b x y : Rabs a <= x -> Rabs b <= y -> Rabs (a * b) <= x * y.
Proof. intros H1 H2. rewrite Rabs_mult. apply mul_le; auto using Rabs_pos. Qed.

(** What the parameters of a rounded step satisfy: relative error u, absolute error eta, e = u + eta, scale V of the data, further error psi. *)
Definition setting (rnd : R -> R) (u eta V psi h H : R) : Prop :=
  rounds rnd u eta /\ 0 <= u /\ 0 <= eta /\ u + eta <= 1 /\ 1 <= V /\ 0 <= psi <= 2 * V /\ 0 <= h <= H.
Section One.
Context (rnd : R -> R) (u eta V psi h H : R).
Hypothesis S : setting rnd u eta V psi h H.
Notation e := (u + eta).
(** D covers the rounding errors *)
Lemma rnd_step D E B z' z : V * e <= D -> 0 <= E -> 0 <= B -> Rabs (z' - z) <= E * D -> Rabs z <= B * V -> Rabs (rnd z' - z) <= (2 * E + B + 1) * D.
Proof.
  destruct S as [[_ RR] [U0 [T0 [E1 [V1 _]]]]]. intros HD HE HB H1 H2.
  assert (A1 : Rabs z' <= E * D + B * V) by (eapply abs_from; eassumption).
  pose proof (RR z') as R1. assert (R2 : Rabs (rnd z' - z) <= (u * Rabs z' + eta) + E * D) by (eapply tri3; eassumption).
  assert (Q0 : 0 <= V * e) by (apply Rmult_le_pos; lra). assert (D0 : 0 <= E * D) by (apply Rmult_le_pos; lra).
  assert (Q1 : u * Rabs z' <= u * (E * D + B * V)) by (apply Rmult_le_compat_l; assumption).
  assert (Q2 : u * (E * D) <= 1 * (E * D)) by (apply Rmult_le_compat_r; lra).
  assert (Q3 : u * V <= V * e) by (rewrite Rmult_comm; apply Rmult_le_compat_l; lra).
  assert (Q3' : B * (u * V) <= B * D) by (apply Rmult_le_compat_l; lra).
  assert (Q4 : eta <= V * e). { apply Rle_trans with (1 * e); [lra|]. apply Rmult_le_compat_r; lra. }
  replace (u * (E * D + B * V)) with (u * (E * D) + B * (u * V)) in Q1 by ring. lra.
Qed.
Notation D := (V * e + h * psi).
Lemma D_ge : V * e <= D. Proof. destruct S as [_ [U0 [T0 [E1 [V1 [P0 H0]]]]]]. assert (0 <= h * psi) by (apply Rmult_le_pos; lra). lra. Qed.
Lemma D_nonneg : 0 <= D. Proof. pose proof D_ge. destruct S as [_ [U0 [T0 [E1 [V1 _]]]]]. assert (0 <= V * e) by (apply Rmult_le_pos; lra). lra. Qed.
Lemma e_le_D : e <= D. Proof. pose proof D_ge. destruct S as [_ [U0 [T0 [E1 [V1 _]]]]]. assert (1 * e <= V * e) by (apply Rmult_le_compat_r; lra). lra. Qed.
Lemma coef_err A a : 0 <= A -> Rabs a <= A -> Rabs (rnd a - a) <= (A + 1) * e.
Proof.
  destruct S as [[_ RR] [U0 [T0 [E1 _]]]]. intros HA H1. eapply Rle_trans; [apply RR|].
  assert (u * Rabs a <= u * A) by (apply Rmult_le_compat_l; assumption). assert (0 <= eta * A) by (apply Rmult_le_pos; assumption). lra.
Qed.
(** constants of one accumulation *)
Definition P1 (A : R) : R := (2 * A + 1) * H + 1 + H * (A + 1).
Definition Q1 (A Bk Ek : R) : R := Ek * (H * A + 3 * P1 A + A) + Bk * P1 A.
Definition E1 (A Bk Ek B0 E0 : R) : R := 2 * (E0 + (2 * Q1 A Bk Ek + H * A * Bk + 1)) + (B0 + H * A * Bk) + 1 + H * (A + 1) * Bk.
Lemma H_nonneg : 0 <= H. Proof. destruct S as [_ [_ [_ [_ [_ [_ HH]]]]]]. lra. Qed.
Lemma P1_nonneg A : 0 <= A -> 0 <= P1 A.
Proof. intros HA. unfold P1. pose proof H_nonneg. assert (0 <= (2 * A + 1) * H) by (apply Rmult_le_pos; lra). assert (0 <= H * (A + 1)) by (apply Rmult_le_pos; lra). lra. Qed.
Lemma Q1_nonneg A Bk Ek : 0 <= A -> 0 <= Bk -> 0 <= Ek -> 0 <= Q1 A Bk Ek.
Proof.
  intros. unfold Q1. pose proof H_nonneg. pose proof (P1_nonneg A). assert (0 <= H * A) by (apply Rmult_le_pos; assumption).
  assert (0 <= Ek * (H * A + 3 * P1 A + A)) by (apply Rmult_le_pos; lra). assert (0 <= Bk * P1 A) by (apply Rmult_le_pos; lra). lra.
Qed.
Lemma prod_err A a : 0 <= A -> Rabs a <= A -> Rabs (rnd (h * rnd a) - h * a) <= P1 A * e.
Proof.
  intros HA H1. pose proof (coef_err A a HA H1) as C. pose proof H_nonneg as HH. destruct S as [[_ RR] [U0 [T0 [E1 [V1 [P0 H0]]]]]].
  assert (A1 : Rabs (rnd a) <= 2 * A + 1).
  { assert (X : Rabs (rnd a) <= (A + 1) * e + A) by (eapply abs_from; eassumption). assert ((A + 1) * e <= (A + 1) * 1) by (apply Rmult_le_compat_l; lra). lra. }
  assert (AH : Rabs (h * rnd a) <= H * (2 * A + 1)) by (apply abs_mul; [rewrite Rabs_pos_eq; lra|assumption]).
  assert (X1 : Rabs (rnd (h * rnd a) - h * rnd a) <= (H * (2 * A + 1) + 1) * e).
  { eapply Rle_trans; [apply RR|]. assert (u * Rabs (h * rnd a) <= u * (H * (2 * A + 1))) by (apply Rmult_le_compat_l; assumption).
    assert (0 <= eta * (H * (2 * A + 1))) by (apply Rmult_le_pos; [assumption|]; apply Rmult_le_pos; lra). lra. }
  assert (X2 : Rabs (h * rnd a - h * a) <= H * ((A + 1) * e)).
  { replace (h * rnd a - h * a) with (h * (rnd a - a)) by ring. apply abs_mul; [rewrite Rabs_pos_eq; lra|assumption]. }
  pose proof (tri3 _ _ _ _ _ X1 X2). unfold P1. replace (((2 * A + 1) * H + 1 + H * (A + 1)) * e) with ((H * (2 * A + 1) + 1) * e + H * ((A + 1) * e)) by ring. assumption.
Qed.
Lemma term_err A Bk Ek a k kf : 0 <= A -> 0 <= Bk -> 0 <= Ek -> Rabs a <= A -> Rabs k <= Bk * V -> Rabs (kf - k) <= Ek * (V * e + psi) ->
  Rabs (kf * rnd (h * rnd a) - k * (h * a)) <= Q1 A Bk Ek * D.
Proof.
  intros HA HB HE H1 H2 H3. pose proof (prod_err A a HA H1) as PE. pose proof (P1_nonneg A HA) as PP. pose proof H_nonneg as HH.
  pose proof D_nonneg as DN. destruct S as [_ [U0 [T0 [E1 [V1 [P0 H0]]]]]]. set (p := rnd (h * rnd a)) in *.
  assert (VE : 0 <= V * e) by (apply Rmult_le_pos; lra). assert (HP : 0 <= h * psi) by (apply Rmult_le_pos; lra).
  assert (PA : Rabs p <= h * A + P1 A * e).
  { rewrite Rplus_comm. eapply abs_from; [exact PE|]. apply abs_mul; [rewrite Rabs_pos_eq; lra|assumption]. }
  assert (X1 : Rabs (kf * p - k * p) <= (Ek * (V * e + psi)) * (h * A + P1 A * e)).
  { replace (kf * p - k * p) with ((kf - k) * p) by ring. apply abs_mul; assumption. }
  assert (X2 : Rabs (k * p - k * (h * a)) <= (Bk * V) * (P1 A * e)).
  { replace (k * p - k * (h * a)) with (k * (p - h * a)) by ring. apply abs_mul; assumption. }
  pose proof (tri3 _ _ _ _ _ X1 X2) as X3. eapply Rle_trans; [exact X3|]. unfold Q1.
  (* (V e + psi)(h A + P1 e) <= (H A + 3 P1) V e + A h psi *)
  assert (Y1 : (V * e + psi) * (h * A + P1 A * e) <= (H * A + 3 * P1 A + A) * D).
  { assert (Z1 : (V * e) * (h * A) <= (V * e) * (H * A)) by (apply Rmult_le_compat_l; [assumption|]; apply Rmult_le_compat_r; lra).
    assert (Z2 : (V * e) * (P1 A * e) <= (V * e) * (P1 A * 1)) by (apply Rmult_le_compat_l; [assumption|]; apply Rmult_le_compat_l; lra).
    assert (Z3 : psi * (P1 A * e) <= (2 * V) * (P1 A * e)) by (apply Rmult_le_compat_r; [apply Rmult_le_pos; lra|lra]).
    assert (HA2 : 0 <= H * A) by (apply Rmult_le_pos; lra).
    assert (Z4 : 0 <= (H * A + 3 * P1 A) * (h * psi)) by (apply Rmult_le_pos; lra).
    assert (Z5 : 0 <= A * (V * e)) by (apply Rmult_le_pos; lra).
    replace ((V * e + psi) * (h * A + P1 A * e)) with ((V * e) * (h * A) + (V * e) * (P1 A * e) + A * (h * psi) + psi * (P1 A * e)) by ring.
    replace ((H * A + 3 * P1 A + A) * D) with ((V * e) * (H * A) + (V * e) * (P1 A * 1) + (2 * V) * (P1 A * e) + A * (V * e) + (H * A + 3 * P1 A) * (h * psi) + A * (h * psi)) by ring. lra. }
  assert (Y2 : Ek * ((V * e + psi) * (h * A + P1 A * e)) <= Ek * ((H * A + 3 * P1 A + A) * D)) by (apply Rmult_le_compat_l; assumption).
  assert (Y3 : (Bk * P1 A) * (V * e) <= (Bk * P1 A) * D) by (apply Rmult_le_compat_l; [apply Rmult_le_pos; lra|lra]).
  replace (Ek * (V * e + psi) * (h * A + P1 A * e)) with (Ek * ((V * e + psi) * (h * A + P1 A * e))) by ring.
  replace (Bk * V * (P1 A * e)) with ((Bk * P1 A) * (V * e)) by ring.
  replace ((Ek * (H * A + 3 * P1 A + A) + Bk * P1 A) * D) with (Ek * ((H * A + 3 * P1 A + A) * D) + (Bk * P1 A) * D) by ring. lra.
Qed.
Lemma acc_step A Bk Ek B0 E0 a k kf w wf : 0 <= A -> 0 <= Bk -> 0 <= Ek -> 0 <= B0 -> 0 <= E0 -> Rabs a <= A -> Rabs k <= Bk * V -> Rabs (kf - k) <= Ek * (V * e + psi) ->
  Rabs w <= B0 * V -> Rabs (wf - w) <= E0 * D ->
  Rabs ((if Reqb (rnd a) 0 then wf else rnd (wf + rnd (kf * rnd (h * rnd a)))) - (w + h * (a * k))) <= E1 A Bk Ek B0 E0 * D /\
  Rabs (w + h * (a * k)) <= (B0 + H * A * Bk) * V.
Proof.
  intros HA HB HE HB0 HE0 H1 H2 H3 H4 H5. pose proof H_nonneg as HH. pose proof D_nonneg as DN. pose proof D_ge as DG. pose proof e_le_D as ED.
  pose proof (Q1_nonneg A Bk Ek HA HB HE) as QN.
  assert (HAB : 0 <= H * A * Bk) by (apply Rmult_le_pos; [apply Rmult_le_pos|]; lra).
  assert (V1 : 1 <= V) by apply S. assert (h0 : 0 <= h <= H) by apply S. assert (e0 : 0 <= e) by (destruct S as [_ [? [? _]]]; lra).
  assert (K : Rabs (k * (h * a)) <= H * A * Bk * V).
  { replace (H * A * Bk * V) with ((Bk * V) * (H * A)) by ring. apply abs_mul; [assumption|]. apply abs_mul; [rewrite Rabs_pos_eq; lra|assumption]. }
  assert (WB : Rabs (w + h * (a * k)) <= (B0 + H * A * Bk) * V).
  { eapply Rle_trans; [apply Rabs_triang|]. replace (h * (a * k)) with (k * (h * a)) by ring. lra. }
  split; [|exact WB]. unfold E1. set (q := Q1 A Bk Ek) in *.
  assert (XX : 0 <= H * (A + 1) * Bk) by (apply Rmult_le_pos; [apply Rmult_le_pos|]; lra).
  destruct (Reqb (rnd a) 0) eqn:Z.
  - apply Reqb_eq in Z. pose proof (coef_err A a HA H1) as C. rewrite Z in C. rewrite Rminus_0_l, Rabs_Ropp in C.
    assert (K2 : Rabs (h * (a * k)) <= H * (((A + 1) * e) * (Bk * V))) by (apply abs_mul; [rewrite Rabs_pos_eq; lra|]; apply abs_mul; assumption).
    assert (K3 : H * (A + 1) * Bk * (V * e) <= H * (A + 1) * Bk * D) by (apply Rmult_le_compat_l; assumption).
    replace (wf - (w + h * (a * k))) with ((wf - w) - h * (a * k)) by ring.
    assert (K4 : Rabs (wf - w - h * (a * k)) <= E0 * D + H * (((A + 1) * e) * (Bk * V))).
    { eapply Rle_trans; [apply Rabs_triang|]. rewrite Rabs_Ropp. lra. }
    replace (H * (((A + 1) * e) * (Bk * V))) with (H * (A + 1) * Bk * (V * e)) in K4 by ring.
    assert (K5 : 0 <= (2 * (E0 + (2 * q + H * A * Bk + 1)) + (B0 + H * A * Bk) + 1 - E0) * D) by (apply Rmult_le_pos; lra).
    replace ((2 * (E0 + (2 * q + H * A * Bk + 1)) + (B0 + H * A * Bk) + 1 + H * (A + 1) * Bk) * D)
      with ((2 * (E0 + (2 * q + H * A * Bk + 1)) + (B0 + H * A * Bk) + 1 - E0) * D + E0 * D + H * (A + 1) * Bk * D) by ring. lra.
  - pose proof (term_err A Bk Ek a k kf HA HB HE H1 H2 H3) as T1. fold q in T1.
    pose proof (rnd_step D q (H * A * Bk) _ _ DG QN HAB T1 K) as T2.
    assert (T3 : Rabs ((wf + rnd (kf * rnd (h * rnd a))) - (w + h * (a * k))) <= (E0 + (2 * q + H * A * Bk + 1)) * D).
    { replace (wf + rnd (kf * rnd (h * rnd a)) - (w + h * (a * k))) with ((wf - w) + (rnd (kf * rnd (h * rnd a)) - k * (h * a))) by ring.
      eapply Rle_trans; [apply Rabs_triang|]. lra. }
    assert (T4 : 0 <= E0 + (2 * q + H * A * Bk + 1)) by lra. assert (T5 : 0 <= B0 + H * A * Bk) by lra.
    pose proof (rnd_step D _ _ _ _ DG T4 T5 T3 WB) as T6. eapply Rle_trans; [exact T6|]. apply Rmult_le_compat_r; [assumption|]. lra.
Qed.
End One.
