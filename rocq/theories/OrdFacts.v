(** OrdFacts.v - calculation with terms O(h^p). *)
From Coq Require Import List Arith Bool Lia ZArith QArith Qcanon.
From Verif Require Import Base BaseFacts RkSpec OrdSpec.
Import ListNotations.
Local Open Scope nat_scope.

Lemma Qcabs_mult a b : Qcabs (a * b) = (Qcabs a * Qcabs b)%Qc.
Proof.
  destruct (Qclt_le_dec a 0) as [A|A]; destruct (Qclt_le_dec b 0) as [B|B].
  - rewrite (Qcabs_neg a), (Qcabs_neg b) by (apply Qclt_le_weak; assumption). rewrite Qcabs_pos by qcnra. ring.
  - rewrite (Qcabs_neg a), (Qcabs_pos b) by (first [assumption|apply Qclt_le_weak; assumption]). rewrite Qcabs_neg by qcnra. ring.
  - rewrite (Qcabs_pos a), (Qcabs_neg b) by (first [assumption|apply Qclt_le_weak; assumption]). rewrite Qcabs_neg by qcnra. ring.
  - rewrite (Qcabs_pos a), (Qcabs_pos b) by assumption. rewrite Qcabs_pos by qcnra. ring.
Qed.
Lemma Qcabs_opp a : Qcabs (- a) = Qcabs a.
Proof. unfold Qcabs. qcase a 0%Qc; qcase (- a)%Qc 0%Qc; qclra. Qed.
Lemma qsum_le n f g : (forall i, i < n -> (f i <= g i)%Qc) -> (qsum n f <= qsum n g)%Qc.
Proof.
  induction n; intros H; simpl; [apply Qcle_refl|]. apply Qcplus_le_compat; [apply IHn; intros; apply H; lia|apply H; lia].
Qed.
Lemma qsum_abs n f : (Qcabs (qsum n f) <= qsum n (fun i => Qcabs (f i)))%Qc.
Proof.
  induction n; simpl; [apply Qcle_refl|]. eapply Qcle_trans; [apply Qcabs_triangle|]. apply Qcplus_le_compat; [exact IHn|apply Qcle_refl].
Qed.
Lemma norm1_nonneg n v : (0 <= norm1 n v)%Qc.
Proof. unfold norm1. rewrite <- (qsum_zero n (fun _ => 0%Qc)) by auto. apply qsum_le. intros. apply Qcabs_nonneg. Qed.
Lemma norm1_comp n v j : j < n -> (Qcabs (v j) <= norm1 n v)%Qc.
Proof.
  unfold norm1. induction n; intros H; [lia|]. simpl. destruct (Nat.eq_dec j n) as [->|D].
  - pose proof (norm1_nonneg n v) as Q. unfold norm1 in Q. qclra.
  - assert (Hj : j < n) by lia. specialize (IHn Hj). pose proof (Qcabs_nonneg (v n)). qclra.
Qed.
Lemma norm1_ext n u v : (forall j, j < n -> u j = v j) -> norm1 n u = norm1 n v.
Proof. intros H. apply qsum_ext. intros j Hj. rewrite H by exact Hj. reflexivity. Qed.
Lemma norm1_add n u v : (norm1 n (fun j => (u j + v j)%Qc) <= norm1 n u + norm1 n v)%Qc.
Proof. unfold norm1. rewrite <- qsum_add. apply qsum_le. intros. apply Qcabs_triangle. Qed.
Lemma norm1_scale n k v : norm1 n (fun j => (k * v j)%Qc) = (Qcabs k * norm1 n v)%Qc.
Proof. unfold norm1. rewrite <- qsum_scale. apply qsum_ext. intros. apply Qcabs_mult. Qed.
Definition mnorm (n : nat) (A : nat -> nat -> Qc) : Qc := qsum n (fun i => norm1 n (A i)).
Lemma mnorm_nonneg n A : (0 <= mnorm n A)%Qc.
Proof. unfold mnorm. rewrite <- (qsum_zero n (fun _ => 0%Qc)) by auto. apply qsum_le. intros. apply norm1_nonneg. Qed.
Lemma norm1_mat n A v : (norm1 n (fun i => qsum n (fun k => A i k * v k)%Qc) <= mnorm n A * norm1 n v)%Qc.
Proof.
  unfold mnorm. rewrite <- qsum_scale_r. unfold norm1 at 1. apply qsum_le. intros i _. eapply Qcle_trans; [apply qsum_abs|].
  unfold norm1 at 1. rewrite <- qsum_scale_r. apply qsum_le. intros k Hk. rewrite Qcabs_mult.
  apply (Qcle_trans _ (Qcabs (A i k) * norm1 n v)%Qc); [|apply Qcle_refl].
  pose proof (norm1_comp n v k Hk). pose proof (Qcabs_nonneg (A i k)). generalize dependent (Qcabs (A i k)). generalize dependent (Qcabs (v k)). generalize (norm1 n v). intros; qcnra.
Qed.

(** * families of vectors *)
Section BigO.
Variables (n : nat) (I : Type) (h : I -> Qc) (ok : I -> Prop).
Definition OO (p : nat) (v : I -> nat -> Qc) : Prop :=
  exists C h0, (0 <= C)%Qc /\ (0 < h0)%Qc /\ forall i, ok i -> (Qcabs (h i) <= h0)%Qc -> (norm1 n (v i) <= C * Qcabs (h i) ^ p)%Qc.
Lemma abs_pow_nonneg a p : (0 <= Qcabs a ^ p)%Qc.
Proof. induction p; simpl; [discriminate|]. pose proof (Qcabs_nonneg a). generalize dependent (Qcabs a ^ p)%Qc. generalize dependent (Qcabs a). intros; qcnra. Qed.
Lemma OO_ext p u v : (forall i, ok i -> forall j, j < n -> u i j = v i j) -> OO p v -> OO p u.
Proof. intros H (C & h0 & A & B & Q). exists C, h0. split; [exact A|]. split; [exact B|]. intros i Oi L. rewrite (norm1_ext n (u i) (v i)) by (apply H; exact Oi). apply Q; assumption. Qed.
Definition qmin (a b : Qc) : Qc := if Qcltb a b then a else b.
Lemma qmin_pos a b : (0 < a)%Qc -> (0 < b)%Qc -> (0 < qmin a b)%Qc. Proof. unfold qmin. destruct (Qcltb a b); auto. Qed.
Lemma qmin_l a b : (qmin a b <= a)%Qc. Proof. unfold qmin. qcase a b; qclra. Qed.
Lemma qmin_r a b : (qmin a b <= b)%Qc. Proof. unfold qmin. qcase a b; qclra. Qed.
Lemma OO_add p u v : OO p u -> OO p v -> OO p (fun i j => (u i j + v i j)%Qc).
Proof.
  intros (C & h0 & A & B & Q) (C' & h0' & A' & B' & Q'). exists (C + C')%Qc, (qmin h0 h0'). split; [qclra|]. split; [apply qmin_pos; assumption|].
  intros i Oi L. pose proof (qmin_l h0 h0') as M1. pose proof (qmin_r h0 h0') as M2. eapply Qcle_trans; [apply norm1_add|].
  assert (L1 : (Qcabs (h i) <= h0)%Qc) by exact (Qcle_trans _ _ _ L M1). assert (L2 : (Qcabs (h i) <= h0')%Qc) by exact (Qcle_trans _ _ _ L M2).
  specialize (Q i Oi L1). specialize (Q' i Oi L2). replace ((C + C') * Qcabs (h i) ^ p)%Qc with (C * Qcabs (h i) ^ p + C' * Qcabs (h i) ^ p)%Qc by ring.
  apply Qcplus_le_compat; assumption.
Qed.
Lemma OO_scale p k v : OO p v -> OO p (fun i j => (k * v i j)%Qc).
Proof.
  intros (C & h0 & A & B & Q). exists (Qcabs k * C)%Qc, h0. pose proof (Qcabs_nonneg k) as K. split; [generalize dependent (Qcabs k); intros; qcnra|]. split; [exact B|].
  intros i Oi L. rewrite norm1_scale. specialize (Q i Oi L). rewrite <- Qcmult_assoc. rewrite !(Qcmult_comm (Qcabs k)). apply Qcmult_le_compat_r; assumption.
Qed.
Lemma OO_h p v : OO p v -> OO (S p) (fun i j => (h i * v i j)%Qc).
Proof.
  intros (C & h0 & A & B & Q). exists C, h0. split; [exact A|]. split; [exact B|]. intros i Oi L. rewrite norm1_scale. simpl.
  replace (C * (Qcabs (h i) * Qcabs (h i) ^ p))%Qc with ((C * Qcabs (h i) ^ p) * Qcabs (h i))%Qc by ring. rewrite Qcmult_comm. apply Qcmult_le_compat_r; [apply Q; assumption|apply Qcabs_nonneg].
Qed.
Lemma OO_mat p A v : OO p v -> OO p (fun i j => qsum n (fun k => A j k * v i k)%Qc).
Proof.
  intros (C & h0 & HA & B & Q). exists (mnorm n A * C)%Qc, h0. pose proof (mnorm_nonneg n A) as K. split; [generalize dependent (mnorm n A); intros; qcnra|]. split; [exact B|].
  intros i Oi L. eapply Qcle_trans; [apply norm1_mat|]. specialize (Q i Oi L). rewrite <- Qcmult_assoc. rewrite !(Qcmult_comm (mnorm n A)). apply Qcmult_le_compat_r; assumption.
Qed.
Lemma OO_weaken p v : OO (S p) v -> OO p v.
Proof.
  intros (C & h0 & A & B & Q). exists (C * h0)%Qc, h0. split; [qcnra|]. split; [exact B|]. intros i Oi L. eapply Qcle_trans; [apply Q; assumption|]. simpl.
  pose proof (abs_pow_nonneg (h i) p) as P. generalize dependent (Qcabs (h i) ^ p)%Qc. generalize dependent (Qcabs (h i)). intros a L1 pw P. 
  assert (Z : (0 <= C * pw)%Qc) by qcnra. replace (C * (a * pw))%Qc with (a * (C * pw))%Qc by ring. replace (C * h0 * pw)%Qc with (h0 * (C * pw))%Qc by ring. apply Qcmult_le_compat_r; assumption.
Qed.
Lemma OO_const v : OO 0 (fun _ => v).
Proof. exists (norm1 n v), 1%Qc. split; [apply norm1_nonneg|]. split; [reflexivity|]. intros i _ _. simpl. rewrite Qcmult_1_r. apply Qcle_refl. Qed.
(** v = w + c*h*(J v) *)
Lemma OO_implicit p J c v w : (forall i, ok i -> forall j, j < n -> v i j = (w i j + c * (h i * qsum n (fun k => J j k * v i k)))%Qc) -> OO p w -> OO p v.
Proof.
  intros EQ (C & h0 & A & B & Q). set (b := (Qcabs c * mnorm n J + 1)%Qc).
  assert (BN : (0 <= Qcabs c * mnorm n J)%Qc) by (pose proof (Qcabs_nonneg c); pose proof (mnorm_nonneg n J); generalize dependent (Qcabs c); generalize dependent (mnorm n J); intros; qcnra).
  assert (BP : (0 < b)%Qc) by (unfold b; generalize dependent (Qcabs c * mnorm n J)%Qc; intros; qclra).
  assert (BI : (0 < / (b + b))%Qc).
  { assert (P2 : (0 < b + b)%Qc) by qclra. apply Qcnot_le_lt. intros Q1. assert (E : ((b + b) * / (b + b) = 1)%Qc) by (apply Qcmult_inv_r; intros Z; rewrite Z in P2; discriminate).
    generalize dependent (/ (b + b))%Qc. intros; qcnra. }
  exists (C + C)%Qc, (qmin h0 (/ (b + b))). split; [qclra|]. split; [apply qmin_pos; assumption|]. intros i Oi L.
  pose proof (qmin_l h0 (/ (b + b))) as M1. pose proof (qmin_r h0 (/ (b + b))) as M2.
  assert (L1 : (Qcabs (h i) <= h0)%Qc) by exact (Qcle_trans _ _ _ L M1). assert (L2 : (Qcabs (h i) <= / (b + b))%Qc) by exact (Qcle_trans _ _ _ L M2).
  specialize (Q i Oi L1).
  assert (NV : (norm1 n (v i) <= norm1 n (w i) + Qcabs c * (Qcabs (h i) * (mnorm n J * norm1 n (v i))))%Qc).
  { rewrite (norm1_ext n (v i) (fun j => w i j + c * (h i * qsum n (fun k => J j k * v i k)))%Qc) at 1 by (apply EQ; exact Oi).
    eapply Qcle_trans; [apply norm1_add|]. apply Qcplus_le_compat; [apply Qcle_refl|]. rewrite !norm1_scale.
    pose proof (norm1_mat n J (v i)) as NM. pose proof (Qcabs_nonneg c). pose proof (Qcabs_nonneg (h i)).
    rewrite !(Qcmult_comm (Qcabs c)). apply Qcmult_le_compat_r; [|assumption]. rewrite !(Qcmult_comm (Qcabs (h i))). apply Qcmult_le_compat_r; assumption. }
  pose proof (norm1_nonneg n (v i)) as VN.
  assert (HB : (Qcabs c * (Qcabs (h i) * mnorm n J) <= qc 1 2)%Qc).
  { apply (Qcle_trans _ (Qcabs (h i) * b)%Qc).
    - unfold b. pose proof (Qcabs_nonneg (h i)) as HN. replace (Qcabs (h i) * (Qcabs c * mnorm n J + 1))%Qc with (Qcabs c * (Qcabs (h i) * mnorm n J) + Qcabs (h i))%Qc by ring.
      generalize (Qcabs c * (Qcabs (h i) * mnorm n J))%Qc. intros z. clear - HN. generalize dependent (Qcabs (h i)). intros; qclra.
    - apply (Qcle_trans _ (/ (b + b) * b)%Qc); [apply Qcmult_le_compat_r; [exact L2|qclra]|]. replace (/ (b + b) * b)%Qc with (qc 1 2); [apply Qcle_refl|].
      assert (NZ : b <> 0%Qc) by (intros Z; rewrite Z in BP; discriminate). assert (N2 : (b + b <> 0)%Qc) by (intros Z; apply NZ; qclra).
      change (qc 1 2) with (/ (1 + 1))%Qc. field. split; [exact N2|discriminate]. }
  assert (HV : (Qcabs c * (Qcabs (h i) * (mnorm n J * norm1 n (v i))) <= qc 1 2 * norm1 n (v i))%Qc).
  { replace (Qcabs c * (Qcabs (h i) * (mnorm n J * norm1 n (v i))))%Qc with ((Qcabs c * (Qcabs (h i) * mnorm n J)) * norm1 n (v i))%Qc by ring. apply Qcmult_le_compat_r; assumption. }
  assert (E2 : (norm1 n (v i) = qc 1 2 * norm1 n (v i) + qc 1 2 * norm1 n (v i))%Qc).
  { rewrite <- Qcmult_plus_distr_l. replace (qc 1 2 + qc 1 2)%Qc with 1%Qc by (symmetry; apply Qc_is_canon; reflexivity). ring. }
  replace ((C + C) * Qcabs (h i) ^ p)%Qc with (C * Qcabs (h i) ^ p + C * Qcabs (h i) ^ p)%Qc by ring.
  generalize dependent (C * Qcabs (h i) ^ p)%Qc. generalize dependent (Qcabs c * (Qcabs (h i) * (mnorm n J * norm1 n (v i))))%Qc. generalize dependent (norm1 n (w i)). generalize dependent (qc 1 2 * norm1 n (v i))%Qc.
  generalize dependent (norm1 n (v i)). intros. qclra.
Qed.
End BigO.
Arguments OO n {I} h ok p v.
Arguments OO_ext {n I h ok p} u v.
Arguments OO_add {n I h ok p u v}.
Arguments OO_scale {n I h ok p} k {v}.
Arguments OO_h {n I h ok p v}.
Arguments OO_mat {n I h ok p} A {v}.
Arguments OO_weaken {n I h ok p v}.
Arguments OO_const {n I h ok} v.
Arguments OO_implicit {n I h ok p} J c {v w}.

(** the right-hand side at an argument that moves by O(h) *)
Lemma OO_rhs n {I} (h : I -> Qc) (ok : I -> Prop) f t x f0 g F (c : Qc) (y v : I -> list Qc) : expands n f t x f0 g F ->
  (forall i, ok i -> length (y i) = n /\ f (t + c * h i)%Qc (y i) = Ret (v i)) ->
  OO n h ok 1 (fun i j => (cmp_ (y i) j - cmp_ x j)%Qc) ->
  OO n h ok 2 (fun i j => (cmp_ (v i) j - (cmp_ f0 j + g j * (c * h i) + qsum n (fun k => F j k * (cmp_ (y i) k - cmp_ x k))))%Qc).
Proof.
  intros (M & rho & MN & RP & EX) HY (C & h0 & CN & HP & Q).
  set (D := (Qcabs c + C + 1)%Qc). assert (DP : (1 <= D)%Qc) by (unfold D; pose proof (Qcabs_nonneg c); generalize dependent (Qcabs c); intros; qclra).
  assert (D0 : D <> 0%Qc) by (intros Z; rewrite Z in DP; apply DP; reflexivity).
  assert (RI : (0 < rho / D)%Qc).
  { apply Qcnot_le_lt. intros L. assert (E : (rho / D * D = rho)%Qc) by (field; exact D0). generalize dependent (rho / D)%Qc. intros; qcnra. }
  exists (qsum n (fun _ => 1%Qc) * (M * (D * D)))%Qc, (qmin h0 (rho / D)).
  assert (N1 : (0 <= qsum n (fun _ => 1%Qc))%Qc) by (rewrite <- (qsum_zero n (fun _ => 0%Qc)) by auto; apply qsum_le; intros; discriminate).
  assert (MD : (0 <= M * (D * D))%Qc) by (assert (0 <= D * D)%Qc by qcnra; generalize dependent (D * D)%Qc; intros; qcnra).
  split; [generalize dependent (M * (D * D))%Qc; generalize dependent (qsum n (fun _ => 1%Qc)); intros; qcnra|]. split; [apply qmin_pos; assumption|].
  intros i Oi L. pose proof (qmin_l h0 (rho / D)) as M1. pose proof (qmin_r h0 (rho / D)) as M2.
  assert (L1 : (Qcabs (h i) <= h0)%Qc) by exact (Qcle_trans _ _ _ L M1). assert (L2 : (Qcabs (h i) <= rho / D)%Qc) by exact (Qcle_trans _ _ _ L M2).
  specialize (Q i Oi L1). simpl in Q. rewrite Qcmult_1_r in Q. destruct (HY i Oi) as [LY EY].
  set (dist := (Qcabs (c * h i) + norm1 n (fun k => cmp_ (y i) k - cmp_ x k))%Qc).
  assert (HN : (0 <= Qcabs (h i))%Qc) by apply Qcabs_nonneg.
  assert (DI : (dist <= D * Qcabs (h i))%Qc).
  { unfold dist. rewrite Qcabs_mult. unfold D. replace ((Qcabs c + C + 1) * Qcabs (h i))%Qc with (Qcabs c * Qcabs (h i) + C * Qcabs (h i) + Qcabs (h i))%Qc by ring.
    generalize dependent (norm1 n (fun k => (cmp_ (y i) k - cmp_ x k)%Qc)). intros nn Q. generalize dependent (C * Qcabs (h i))%Qc. generalize dependent (Qcabs c * Qcabs (h i))%Qc. intros; qclra. }
  assert (DN : (0 <= dist)%Qc).
  { unfold dist. pose proof (Qcabs_nonneg (c * h i)). pose proof (norm1_nonneg n (fun k => (cmp_ (y i) k - cmp_ x k)%Qc)). generalize dependent (norm1 n (fun k => (cmp_ (y i) k - cmp_ x k)%Qc)). intros; qclra. }
  assert (DR : (dist <= rho)%Qc).
  { eapply Qcle_trans; [exact DI|]. replace rho with (D * (rho / D))%Qc by (field; exact D0). rewrite !(Qcmult_comm D). apply Qcmult_le_compat_r; [exact L2|]. qclra. }
  destruct (EX (c * h i)%Qc (y i) LY DR) as (v' & EV & LV & V). assert (v' = v i) by congruence. subst v'.
  assert (DD : (M * (dist * dist) <= M * (D * D) * Qcabs (h i) ^ 2)%Qc).
  { simpl. rewrite Qcmult_1_r. replace (M * (D * D) * (Qcabs (h i) * Qcabs (h i)))%Qc with (M * ((D * Qcabs (h i)) * (D * Qcabs (h i))))%Qc by ring.
    rewrite !(Qcmult_comm M). apply Qcmult_le_compat_r; [|exact MN]. generalize dependent (D * Qcabs (h i))%Qc. intros; qcnra. }
  unfold norm1. replace (qsum n (fun _ => 1%Qc) * (M * (D * D)) * Qcabs (h i) ^ 2)%Qc with (qsum n (fun _ => 1%Qc) * (M * (D * D) * Qcabs (h i) ^ 2))%Qc by ring.
  rewrite <- qsum_scale_r. apply qsum_le. intros j Hj. rewrite Qcmult_1_l. eapply Qcle_trans; [apply V; exact Hj|exact DD].
Qed.
