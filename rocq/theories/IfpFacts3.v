(** IfpFacts3.v - runs of the implicit alpha solver in rounded arithmetic as runs of the alpha method over the real numbers. *)
From Coq Require Import List Arith Bool ZArith Lia Permutation Reals Lra Psatz.
From Verif Require Import Base BaseFacts VecModel VOps MapModel NewtModel NewtSpec RkModel RkSpec StepSpec ExtModel ImpModel ImpSpec
  ConvSpec FpSpec ImcSpec ImcFacts ImcFacts2 ImcFacts3 IfpSpec IfpFacts IfpFacts2.
Import ListNotations.
Local Open Scope R_scope.

Section Round.
Context (rnd : R -> R) (u eta : R).
Hypothesis RD : rounds rnd u eta.
Hypothesis U0 : 0 <= u.
Hypothesis E0 : 0 <= eta.
Notation w := (u + eta).
Hypothesis W1 : w <= 1.
Lemma rnd_err z b : Rabs z <= b -> Rabs (rnd z - z) <= w * (1 + b).
Proof. intros H. destruct RD as [_ Q]. specialize (Q z). pose proof (Rabs_pos z) as P. assert (P1 : 0 <= eta * b) by (apply Rmult_le_pos; lra). assert (P2 : u * Rabs z <= u * b) by (apply Rmult_le_compat_l; assumption). lra. Qed.
Lemma mul_le x y a b : Rabs x <= a -> Rabs y <= b -> Rabs (x * y) <= a * b.
Proof. intros H1 H2. rewrite Rabs_mult. apply Rmult_le_compat; auto using Rabs_pos. Qed.
Lemma abs_shift x y e b : Rabs (x - y) <= e -> Rabs y <= b -> Rabs x <= b + e.
Proof. intros H1 H2. revert H1 H2. unfold Rabs. repeat destruct Rcase_abs; lra. Qed.
Lemma abs_sum x y x' y' e f : Rabs (x - x') <= e -> Rabs (y - y') <= f -> Rabs ((x + y) - (x' + y')) <= e + f.
Proof. intros. replace (x + y - (x' + y')) with ((x - x') + (y - y')) by ring. eapply Rle_trans; [apply Rabs_triang|]. lra. Qed.
Lemma abs_trans x y z e f : Rabs (x - y) <= e -> Rabs (y - z) <= f -> Rabs (x - z) <= e + f.
Proof. intros. replace (x - z) with ((x - y) + (y - z)) by ring. eapply Rle_trans; [apply Rabs_triang|]. lra. Qed.
Lemma abs_add x y a b : Rabs x <= a -> Rabs y <= b -> Rabs (x + y) <= a + b.
Proof. intros. eapply Rle_trans; [apply Rabs_triang|]. lra. Qed.

Variables (h al B G : R).
Hypothesis H0 : 0 <= h.
Hypothesis A01 : 0 <= al <= 1.
Hypothesis B0 : 0 <= B.
Hypothesis G0 : 0 <= G.
Notation k := (1 + h).
Lemma wk : 0 <= w * k /\ w * k <= k /\ 0 <= h * w /\ h * w <= h /\ w <= w * k.
Proof. assert (0 <= h * w) by (apply Rmult_le_pos; lra). assert (h * w <= h * 1) by (apply Rmult_le_compat_l; lra). lra. Qed.
Lemma prod_facts X : 0 <= X -> 0 <= X * (w * k) /\ X * (w * k) <= X * k /\ 0 <= X * h /\ 0 <= X * (h * w) /\ 0 <= X * w /\ X * (h * w) <= X * h /\ X * w <= X.
Proof.
  intros HX. destruct wk as (W2 & W3 & W4 & W5 & W6). repeat split; try (apply Rmult_le_pos; lra); try (apply Rmult_le_compat_l; lra).
  rewrite <- (Rmult_1_r X) at 2. apply Rmult_le_compat_l; lra.
Qed.
(** the coefficients -h (1 - al) and -h al *)
Lemma coef0 (sg : R) : sg = h \/ sg = - h -> Rabs (rnd (sg * rnd (1 - al)) - sg * (1 - al)) <= 5 * (w * k) /\ Rabs (rnd (sg * rnd (1 - al))) <= 6 * k.
Proof.
  intros SG. destruct wk as (W2 & W3 & W4 & W5 & W6). assert (HS : Rabs sg <= h) by (destruct SG as [-> | ->]; [rewrite Rabs_right by lra|rewrite Rabs_left1 by lra]; lra).
  assert (A : Rabs (1 - al) <= 1) by (rewrite Rabs_right; lra). pose proof (rnd_err _ _ A) as A1. set (a1 := rnd (1 - al)) in *.
  assert (A2 : Rabs a1 <= 3) by (pose proof (abs_shift _ _ _ _ A1 A); lra).
  pose proof (mul_le sg a1 _ _ HS A2) as M. pose proof (rnd_err _ _ M) as E1.
  assert (D : Rabs (sg * a1 - sg * (1 - al)) <= h * (w * (1 + 1))) by (rewrite <- Rmult_minus_distr_l; apply mul_le; assumption).
  pose proof (abs_trans _ _ _ _ _ E1 D) as Q. assert (Q5 : Rabs (rnd (sg * a1) - sg * (1 - al)) <= 5 * (w * k)) by lra. split; [exact Q5|].
  pose proof (mul_le sg (1 - al) _ _ HS A) as M2. pose proof (abs_shift _ _ _ _ Q5 M2). lra.
Qed.
Lemma coef1 (sg : R) : sg = h \/ sg = - h -> Rabs (rnd (sg * al) - sg * al) <= w * k /\ Rabs (rnd (sg * al)) <= 2 * k.
Proof.
  intros SG. destruct wk as (W2 & W3 & W4 & W5 & W6). assert (HS : Rabs sg <= h) by (destruct SG as [-> | ->]; [rewrite Rabs_right by lra|rewrite Rabs_left1 by lra]; lra).
  assert (A : Rabs al <= 1) by (rewrite Rabs_right; lra). pose proof (mul_le sg al _ _ HS A) as M. pose proof (rnd_err _ _ M) as E1.
  assert (E2 : Rabs (rnd (sg * al) - sg * al) <= w * k) by lra. split; [exact E2|]. pose proof (abs_shift _ _ _ _ E2 M). lra.
Qed.
Lemma term0 sg F X : 0 <= X -> sg = h \/ sg = - h -> Rabs F <= X -> Rabs (rnd (F * rnd (sg * rnd (1 - al))) - F * (sg * (1 - al))) <= (1 + 11 * X) * (w * k) /\ Rabs (rnd (F * rnd (sg * rnd (1 - al)))) <= (1 + 12 * X) * k.
Proof.
  intros HX SG HF. destruct wk as (W2 & W3 & W4 & W5 & W6). destruct (prod_facts X HX) as (P1 & P2 & P3 & P4 & P5 & P6 & P7). destruct (coef0 sg SG) as [C1 C2]. set (c0 := rnd (sg * rnd (1 - al))) in *.
  pose proof (mul_le F c0 _ _ HF C2) as M. pose proof (rnd_err _ _ M) as E1.
  assert (D : Rabs (F * c0 - F * (sg * (1 - al))) <= X * (5 * (w * k))) by (rewrite <- Rmult_minus_distr_l; apply mul_le; assumption).
  pose proof (abs_trans _ _ _ _ _ E1 D) as Q. assert (Q5 : Rabs (rnd (F * c0) - F * (sg * (1 - al))) <= (1 + 11 * X) * (w * k)) by lra. split; [exact Q5|].
  assert (HS : Rabs sg <= h) by (destruct SG as [-> | ->]; [rewrite Rabs_right by lra|rewrite Rabs_left1 by lra]; lra). assert (A : Rabs (1 - al) <= 1) by (rewrite Rabs_right; lra).
  pose proof (mul_le F _ _ _ HF (mul_le sg (1 - al) _ _ HS A)) as M2. pose proof (abs_shift _ _ _ _ Q5 M2). lra.
Qed.
Lemma term1 sg F X : 0 <= X -> sg = h \/ sg = - h -> Rabs F <= X -> Rabs (rnd (F * rnd (sg * al)) - F * (sg * al)) <= (1 + 3 * X) * (w * k) /\ Rabs (rnd (F * rnd (sg * al))) <= (1 + 4 * X) * k.
Proof.
  intros HX SG HF. destruct wk as (W2 & W3 & W4 & W5 & W6). destruct (prod_facts X HX) as (P1 & P2 & P3 & P4 & P5 & P6 & P7). destruct (coef1 sg SG) as [C1 C2]. set (c0 := rnd (sg * al)) in *.
  pose proof (mul_le F c0 _ _ HF C2) as M. pose proof (rnd_err _ _ M) as E1.
  assert (D : Rabs (F * c0 - F * (sg * al)) <= X * (w * k)) by (rewrite <- Rmult_minus_distr_l; apply mul_le; assumption).
  pose proof (abs_trans _ _ _ _ _ E1 D) as Q. assert (Q5 : Rabs (rnd (F * c0) - F * (sg * al)) <= (1 + 3 * X) * (w * k)) by lra. split; [exact Q5|].
  assert (HS : Rabs sg <= h) by (destruct SG as [-> | ->]; [rewrite Rabs_right by lra|rewrite Rabs_left1 by lra]; lra). assert (A : Rabs al <= 1) by (rewrite Rabs_right; lra).
  pose proof (mul_le F _ _ _ HF (mul_le sg al _ _ HS A)) as M2. pose proof (abs_shift _ _ _ _ Q5 M2). lra.
Qed.
Lemma rr_err F0 F1 X0 X1 tol : Rabs F0 <= G -> Rabs F1 <= G -> Rabs X0 <= B -> Rabs X1 <= B -> Rabs (rr rnd F0 F1 X0 X1 h al) <= tol ->
  Rabs (X1 - X0 - h * ((1 - al) * F0 + al * F1)) <= tol + 60 * (1 + B + G) * k * w.
Proof.
  intros HF0 HF1 HX0 HX1 TL. unfold rr in TL. destruct wk as (W2 & W3 & W4 & W5 & W6).
  destruct (prod_facts G G0) as (P1 & P2 & P3 & P4 & P5 & P6 & P7). destruct (prod_facts B B0) as (R1 & R2 & R3 & R4 & R5 & R6 & R7).
  destruct (term0 (- h) F0 G G0 ltac:(auto) HF0) as [S1 S2]. destruct (term1 (- h) F1 G G0 ltac:(auto) HF1) as [T1 T2].
  set (f0 := rnd (F0 * rnd (- h * rnd (1 - al)))) in *. set (p := rnd (F1 * rnd (- h * al))) in *.
  assert (D1 : Rabs (X1 - X0) <= B + B) by (unfold Rminus; apply abs_add; [assumption|rewrite Rabs_Ropp; assumption]).
  pose proof (rnd_err _ _ D1) as E1. set (d1 := rnd (X1 - X0)) in *. assert (D1' : Rabs d1 <= 1 + 4 * B) by (pose proof (abs_shift _ _ _ _ E1 D1); lra).
  pose proof (abs_add _ _ _ _ D1' S2) as Z2. pose proof (rnd_err _ _ Z2) as E2. set (d2 := rnd (d1 + f0)) in *.
  assert (D2' : Rabs d2 <= (5 + 8 * B + 24 * G) * k) by (pose proof (abs_shift _ _ _ _ E2 Z2); lra).
  pose proof (abs_add _ _ _ _ D2' T2) as Z3. pose proof (rnd_err _ _ Z3) as E3. set (d3 := rnd (d2 + p)) in *.
  pose proof (abs_sum _ _ _ _ _ _ E2 T1) as Q1. pose proof (abs_sum _ _ _ _ _ _ E1 S1) as Q2.
  assert (Q : Rabs (d3 - (X1 - X0 + F0 * (- h * (1 - al)) + F1 * (- h * al))) <= 60 * (1 + B + G) * k * w).
  { apply Rle_trans with (w * (1 + ((5 + 8 * B + 24 * G) * k + (1 + 4 * G) * k)) + ((w * (1 + (1 + 4 * B + (1 + 12 * G) * k)) + (1 + 3 * G) * (w * k)) + (w * (1 + (B + B)) + (1 + 11 * G) * (w * k)))).
    - replace (d3 - (X1 - X0 + F0 * (- h * (1 - al)) + F1 * (- h * al))) with ((d3 - (d2 + p)) + ((d2 + p - (d1 + f0 + F1 * (- h * al))) + (d1 + f0 - (X1 - X0 + F0 * (- h * (1 - al)))))) by ring.
      apply abs_add; [exact E3|]. apply abs_add; assumption.
    - lra. }
  replace (X1 - X0 - h * ((1 - al) * F0 + al * F1)) with (d3 - (d3 - (X1 - X0 + F0 * (- h * (1 - al)) + F1 * (- h * al)))) by ring.
  unfold Rminus at 1. apply abs_add; [exact TL|rewrite Rabs_Ropp; exact Q].
Qed.
Lemma rp_err V0 V1 X0 : Rabs V0 <= B -> Rabs V1 <= B -> Rabs X0 <= B ->
  Rabs (rp rnd V0 V1 X0 h al - X0 - h * ((1 - al) * V0 + al * V1)) <= 60 * (1 + B + G) * k * w.
Proof.
  intros HF0 HF1 HX0. unfold rp. destruct wk as (W2 & W3 & W4 & W5 & W6).
  destruct (prod_facts G G0) as (P1 & P2 & P3 & P4 & P5 & P6 & P7). destruct (prod_facts B B0) as (R1 & R2 & R3 & R4 & R5 & R6 & R7).
  destruct (term0 h V0 B B0 ltac:(auto) HF0) as [S1 S2]. destruct (term1 h V1 B B0 ltac:(auto) HF1) as [T1 T2].
  set (f0 := rnd (V0 * rnd (h * rnd (1 - al)))) in *. set (p := rnd (V1 * rnd (h * al))) in *.
  pose proof (abs_add _ _ _ _ HX0 S2) as Z2. pose proof (rnd_err _ _ Z2) as E2. set (d2 := rnd (X0 + f0)) in *.
  assert (D2' : Rabs d2 <= (3 + 26 * B) * k) by (pose proof (abs_shift _ _ _ _ E2 Z2); lra).
  pose proof (abs_add _ _ _ _ D2' T2) as Z3. pose proof (rnd_err _ _ Z3) as E3. set (d3 := rnd (d2 + p)) in *.
  pose proof (abs_sum _ _ _ _ _ _ E2 T1) as Q1.
  apply Rle_trans with (w * (1 + ((3 + 26 * B) * k + (1 + 4 * B) * k)) + ((w * (1 + (B + (1 + 12 * B) * k)) + (1 + 3 * B) * (w * k)) + (1 + 11 * B) * (w * k))).
  - replace (d3 - X0 - h * ((1 - al) * V0 + al * V1)) with ((d3 - (d2 + p)) + ((d2 + p - (X0 + f0 + V1 * (h * al))) + (f0 - V0 * (h * (1 - al))))) by ring.
    apply abs_add; [exact E3|]. apply abs_add; assumption.
  - lra.
Qed.
End Round.
