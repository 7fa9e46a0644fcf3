(** ImcFacts2.v - the implicit Euler method under a one-sided Lipschitz condition. *)
From Coq Require Import List Arith ZArith Lia Reals Lra Psatz.
From Verif Require Import Base VecModel VOps RkModel RkSpec StepSpec ConvSpec ConvFacts ConvFacts3 ConvFacts4 ConvFacts5 ImcSpec ImcFacts.
Import ListNotations.
Local Open Scope R_scope.

Definition dot (n : nat) (a b : nat -> R) : R := rsum n (fun j => a j * b j).
Lemma rsum_plus n f g : rsum n (fun i => f i + g i) = rsum n f + rsum n g.
Proof. induction n as [|n IH]; simpl; [ring|rewrite IH; ring]. Qed.
Lemma rsum_scal n c f : rsum n (fun i => c * f i) = c * rsum n f.
Proof. induction n as [|n IH]; simpl; [ring|rewrite IH; ring]. Qed.
Lemma dot_pos n a : 0 <= dot n a a.
Proof. apply rsum_nonneg. intros i _. nra. Qed.
Lemma dot_comb n a b s t : dot n (fun j => s * a j + t * b j) (fun j => s * a j + t * b j) = s * s * dot n a a + 2 * s * t * dot n a b + t * t * dot n b b.
Proof.
  unfold dot. rewrite <- !rsum_scal. rewrite <- !rsum_plus. apply rsum_ext. intros i _. ring.
Qed.
Lemma cauchy n a b : dot n a b * dot n a b <= dot n a a * dot n b b.
Proof.
  pose proof (dot_pos n a) as A. pose proof (dot_pos n b) as B.
  destruct (Req_dec (dot n b b) 0) as [Z|NZ].
  - assert (E : dot n a b = 0).
    { assert (forall m, (m <= n)%nat -> dot m b b = 0).
      { intros m Hm. assert (dot m b b <= dot n b b). { clear - Hm. induction Hm as [|k _ IH]; [lra|]. eapply Rle_trans; [exact IH|]. unfold dot. simpl. nra. } pose proof (dot_pos m b). lra. }
      assert (forall i, (i < n)%nat -> b i = 0). { intros i Hi. pose proof (H i ltac:(lia)) as Q1. pose proof (H (S i) ltac:(lia)) as Q2. unfold dot in Q1, Q2. simpl in Q2. nra. }
      unfold dot. transitivity (rsum n (fun _ => 0)); [apply rsum_ext; intros i Hi; rewrite H0 by assumption; ring|]. clear. induction n; simpl; [reflexivity|lra]. }
    rewrite E, Z. lra.
  - pose proof (dot_pos n (fun j => dot n b b * a j + (- dot n a b) * b j)) as P. rewrite dot_comb in P.
    set (p := dot n a a) in *. set (q := dot n b b) in *. set (r := dot n a b) in *.
    assert (P2 : 0 <= q * (p * q - r * r)) by (eapply Rle_trans; [exact P|]; right; ring).
    assert (0 < q) by lra. assert (0 <= p * q - r * r); [|lra]. destruct (Rle_lt_dec 0 (p * q - r * r)) as [K|K]; [exact K|]. exfalso. nra.
Qed.
Definition norm2 (n : nat) (a : nat -> R) : R := sqrt (dot n a a).
Lemma norm2_pos n a : 0 <= norm2 n a. Proof. apply sqrt_pos. Qed.
Lemma norm2_sq n a : norm2 n a * norm2 n a = dot n a a. Proof. apply sqrt_sqrt, dot_pos. Qed.
Lemma dot_le n a b : dot n a b <= norm2 n a * norm2 n b.
Proof.
  pose proof (cauchy n a b) as C. rewrite <- !norm2_sq in C. pose proof (norm2_pos n a). pose proof (norm2_pos n b).
  destruct (Rle_lt_dec (dot n a b) 0) as [K|K]; [assert (0 <= norm2 n a * norm2 n b) by (apply Rmult_le_pos; assumption); lra|].
  apply Rsqr_incr_0; unfold Rsqr; [|lra|apply Rmult_le_pos; assumption]. eapply Rle_trans; [exact C|]. right. ring.
Qed.
Lemma norm2_triangle n a b : norm2 n (fun j => a j + b j) <= norm2 n a + norm2 n b.
Proof.
  pose proof (norm2_pos n a). pose proof (norm2_pos n b). apply Rsqr_incr_0; unfold Rsqr; [|apply norm2_pos|lra].
  rewrite norm2_sq. pose proof (dot_comb n a b 1 1) as E. replace (dot n (fun j => a j + b j) (fun j => a j + b j)) with (dot n (fun j => 1 * a j + 1 * b j) (fun j => 1 * a j + 1 * b j)).
  2:{ unfold dot. apply rsum_ext. intros i _. ring. } rewrite E. pose proof (dot_le n a b). rewrite <- !norm2_sq in *. nra.
Qed.
Lemma norm2_bound n a b : 0 <= b -> (forall j, (j < n)%nat -> Rabs (a j) <= b) -> norm2 n a <= sqrt (INR n) * b.
Proof.
  intros B H. assert (E : dot n a a <= INR n * (b * b)).
  { unfold dot. induction n as [|n IH]; [simpl; lra|]. rewrite S_INR. simpl. assert (a n * a n <= b * b).
    { pose proof (H n ltac:(lia)) as K. pose proof (Rabs_pos (a n)). replace (a n * a n) with (Rabs (a n) * Rabs (a n)); [nra|]. rewrite <- Rabs_mult. apply Rabs_right. nra. }
    assert (rsum n (fun j => a j * a j) <= INR n * (b * b)) by (apply IH; intros; apply H; lia). lra. }
  unfold norm2. eapply Rle_trans; [apply sqrt_le_1_alt; exact E|]. rewrite sqrt_mult; [|apply pos_INR|nra]. rewrite sqrt_square by assumption. lra.
Qed.
Lemma dist2_norm n x y : dist2 n x y = norm2 n (fun j => cmpR x j - cmpR y j). Proof. reflexivity. Qed.
Lemma dist2_near n x y : near n x y (dist2 n x y).
Proof.
  intros j Hj. rewrite dist2_norm. set (e := fun j => cmpR x j - cmpR y j). change (Rabs (e j) <= norm2 n e).
  apply Rsqr_incr_0; unfold Rsqr; [|apply Rabs_pos|apply norm2_pos]. rewrite norm2_sq, <- Rabs_mult, Rabs_right by nra.
  clearbody e. clear - Hj. unfold dot. induction n as [|n IH]; [lia|]. simpl. destruct (Nat.eq_dec j n) as [->|NE].
  - assert (0 <= rsum n (fun i => e i * e i)) by (apply rsum_nonneg; intros; nra). lra.
  - specialize (IH ltac:(lia)). nra.
Qed.

(** One step of two runs *)
Lemma euler_contracts n g nu h e1 e2 t x y u v : one_sided n nu g -> 0 <= h -> h * nu < 1 -> 0 <= e1 -> 0 <= e2 ->
  astep n g 1 h e1 t x y -> astep n g 1 h e2 t u v -> (1 - h * nu) * dist2 n y v <= dist2 n x u + sqrt (INR n) * (e1 + e2).
Proof.
  intros OS Hh Hs E1 E2 (Lx & Ly & A) (Lu & Lv & B). rewrite !dist2_norm.
  set (e := fun j => cmpR y j - cmpR v j). set (d := fun j => cmpR x j - cmpR u j).
  set (dg := fun j => cmpR (g (t + h) y) j - cmpR (g (t + h) v) j).
  set (r := fun j => e j - d j - h * dg j).
  assert (R : norm2 n r <= sqrt (INR n) * (e1 + e2)).
  { apply norm2_bound; [lra|]. intros j Hj. pose proof (A j Hj) as Aj. pose proof (B j Hj) as Bj. unfold r, e, d, dg.
    set (a0 := cmpR (g t x) j) in *. set (b0 := cmpR (g t u) j) in *. set (a1 := cmpR (g (t + h) y) j) in *. set (b1 := cmpR (g (t + h) v) j) in *.
    replace (cmpR y j - cmpR v j - (cmpR x j - cmpR u j) - h * (a1 - b1)) with ((cmpR y j - cmpR x j - h * ((1 - 1) * a0 + 1 * a1)) - (cmpR v j - cmpR u j - h * ((1 - 1) * b0 + 1 * b1))) by ring.
    eapply Rle_trans; [apply Rabs_triang|]. rewrite Rabs_Ropp. apply Rplus_le_compat; assumption. }
  pose proof (OS (t + h) y v Ly Lv) as O. change (dot n dg e <= nu * dot n e e) in O.
  assert (EQ : dot n e e = dot n (fun j => d j + r j) e + h * dot n dg e).
  { unfold dot. rewrite <- rsum_scal, <- rsum_plus. apply rsum_ext. intros j _. unfold r. ring. }
  pose proof (dot_le n (fun j => d j + r j) e) as C. pose proof (norm2_triangle n d r) as T.
  pose proof (norm2_pos n e) as P. pose proof (norm2_sq n e) as Q.
  assert (I : (1 - h * nu) * (norm2 n e * norm2 n e) <= (norm2 n d + norm2 n r) * norm2 n e).
  { assert (h * dot n dg e <= h * (nu * dot n e e)) by (apply Rmult_le_compat_l; assumption). assert (norm2 n (fun j => d j + r j) * norm2 n e <= (norm2 n d + norm2 n r) * norm2 n e) by (apply Rmult_le_compat_r; assumption).
    rewrite Q. lra. }
  destruct (Req_dec (norm2 n e) 0) as [Z|NZ].
  - rewrite Z, Rmult_0_r. pose proof (norm2_pos n d). pose proof (norm2_pos n r). lra.
  - assert (0 < norm2 n e) by lra. apply Rle_trans with (norm2 n d + norm2 n r); [|lra]. apply Rmult_le_reg_r with (norm2 n e); [assumption|]. rewrite Rmult_assoc. exact I.
Qed.
(** Runs: distance divided by (1 - h nu)^k, residuals added; for nu <= 0 *)
Lemma contracting_run n g nu h e1 e2 t0 z y : one_sided n nu g -> 0 <= h -> nu <= 0 -> 0 <= e1 -> 0 <= e2 -> forall count,
  apath n g 1 h e1 t0 z count -> apath n g 1 h e2 t0 y count ->
  dist2 n (z count) (y count) <= dist2 n (z 0%nat) (y 0%nat) / (1 - h * nu) ^ count + INR count * (sqrt (INR n) * (e1 + e2)).
Proof.
  intros OS Hh Hn E1 E2. assert (S1 : 1 <= 1 - h * nu) by nra. assert (RP : 0 <= sqrt (INR n) * (e1 + e2)) by (apply Rmult_le_pos; [apply sqrt_pos|lra]).
  induction count as [|k IH]; intros PZ PY.
  - simpl. unfold Rdiv. rewrite Rinv_1, Rmult_1_r. lra.
  - assert (I := IH (fun i Hi => PZ i (Nat.lt_trans _ _ _ Hi (Nat.lt_succ_diag_r k))) (fun i Hi => PY i (Nat.lt_trans _ _ _ Hi (Nat.lt_succ_diag_r k)))). clear IH.
    pose proof (euler_contracts n g nu h e1 e2 (t0 + INR k * h) (z k) (z (S k)) (y k) (y (S k)) OS Hh ltac:(nra) E1 E2 (PZ k (Nat.lt_succ_diag_r k)) (PY k (Nat.lt_succ_diag_r k))) as C.
    set (q := 1 - h * nu) in *. set (D0 := dist2 n (z 0%nat) (y 0%nat)) in *. assert (DP : 0 <= D0) by apply sqrt_pos.
    assert (PK : 0 < q ^ k) by (apply pow_lt; lra).
    rewrite S_INR. apply Rmult_le_reg_l with q; [lra|]. eapply Rle_trans; [exact C|].
    replace (q * (D0 / q ^ S k + (INR k + 1) * (sqrt (INR n) * (e1 + e2)))) with (D0 / q ^ k + q * ((INR k + 1) * (sqrt (INR n) * (e1 + e2)))) by (simpl; field; split; [lra|lra]).
    pose proof (pos_INR k). assert ((INR k + 1) * (sqrt (INR n) * (e1 + e2)) <= q * ((INR k + 1) * (sqrt (INR n) * (e1 + e2)))).
    { rewrite <- (Rmult_1_l ((INR k + 1) * (sqrt (INR n) * (e1 + e2)))) at 1. apply Rmult_le_compat_r; [apply Rmult_le_pos; lra|exact S1]. } lra.
Qed.
