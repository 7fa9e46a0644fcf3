(** HighFacts6.v - bounded partial derivatives give Taylor expansions. *)
From Coq Require Import List Arith Lia Bool Reals Lra.
From Verif Require Import Base BaseFacts VecModel VOps RkModel RkSpec RkFacts4 StepSpec ConvSpec ConvFacts ConvFacts3 ConvFacts4 HighSpec HighFacts HighFacts2 HighFacts3.
Import ListNotations.
Local Open Scope R_scope.

Lemma poly_lim (c : nat -> R) p th : derivable_pt_lim (fun th => rsum (S p) (fun m => c m * th ^ m / INR (fact m))) th (rsum p (fun m => c (S m) * th ^ m / INR (fact m))).
Proof.
  induction p as [|p I].
  - simpl. intros eps He. exists (mkposreal 1 Rlt_0_1). intros h _ _. replace ((0 + c 0%nat * 1 / 1 - (0 + c 0%nat * 1 / 1)) / h - 0) with 0 by (unfold Rdiv; ring). rewrite Rabs_R0. exact He.
  - change (fun th => rsum (S (S p)) (fun m => c m * th ^ m / INR (fact m))) with (fun th => rsum (S p) (fun m => c m * th ^ m / INR (fact m)) + c (S p) * th ^ S p / INR (fact (S p))).
    change (rsum (S p) (fun m => c (S m) * th ^ m / INR (fact m))) with (rsum p (fun m => c (S m) * th ^ m / INR (fact m)) + c (S p) * th ^ p / INR (fact p)).
    apply (derivable_pt_lim_plus (fun th => rsum (S p) (fun m => c m * th ^ m / INR (fact m))) (fun th => c (S p) * th ^ S p / INR (fact (S p)))); [exact I|].
    assert (N1 : INR (fact p) <> 0) by apply INR_fact_neq_0. assert (N2 : INR (S p) <> 0) by (apply not_0_INR; lia).
    replace (c (S p) * th ^ p / INR (fact p)) with ((c (S p) / INR (fact (S p))) * (INR (S p) * th ^ pred (S p))).
    2:{ simpl pred. change (fact (S p)) with (S p * fact p)%nat. rewrite mult_INR. field. split; assumption. }
    intros eps He. destruct (derivable_pt_lim_scal (fun th => th ^ S p) (c (S p) / INR (fact (S p))) th _ (derivable_pt_lim_pow th (S p)) eps He) as [del HD].
    exists del. intros k K0 K1. specialize (HD k K0 K1). unfold mult_real_fct in HD.
    replace (c (S p) * (th + k) ^ S p / INR (fact (S p)) - c (S p) * th ^ S p / INR (fact (S p))) with (c (S p) / INR (fact (S p)) * (th + k) ^ S p - c (S p) / INR (fact (S p)) * th ^ S p) by (unfold Rdiv; ring).
    exact HD.
Qed.
(** Taylor's theorem in one variable *)
Lemma taylor1 p : forall (ph : nat -> R -> R) K, (forall m th, (m < p)%nat -> 0 <= th <= 1 -> derivable_pt_lim (ph m) th (ph (S m) th)) ->
  (forall th, 0 <= th <= 1 -> Rabs (ph p th) <= K) ->
  forall th, 0 <= th <= 1 -> Rabs (ph 0%nat th - rsum p (fun m => ph m 0 * th ^ m / INR (fact m))) <= K.
Proof.
  induction p as [|p I]; intros ph K DE BO th Hth; [simpl; rewrite Rminus_0_r; apply BO; assumption|].
  assert (K0 : 0 <= K) by (eapply Rle_trans; [apply Rabs_pos|apply (BO th Hth)]).
  set (rest := fun th => ph 0%nat th - rsum (S p) (fun m => ph m 0 * th ^ m / INR (fact m))).
  set (rest' := fun th => ph 1%nat th - rsum p (fun m => ph (S m) 0 * th ^ m / INR (fact m))).
  assert (R0 : rest 0 = 0).
  { unfold rest. rewrite (rsum_ext (S p) _ (fun m => if m =? 0 then ph 0%nat 0 else 0)).
    - assert (G : forall q, rsum (S q) (fun m => if m =? 0 then ph 0%nat 0 else 0) = ph 0%nat 0) by (induction q as [|q J]; [simpl; ring|]; change (rsum (S (S q)) ?g) with (rsum (S q) g + g (S q)); rewrite J; simpl; ring).
      rewrite G. ring.
    - intros [|m] Hm; simpl Nat.eqb; cbv iota; [simpl; field|]. rewrite pow_i by lia. unfold Rdiv. ring. }
  assert (BR : forall u, 0 <= u <= 1 -> Rabs (rest' u) <= K).
  { intros u Hu. apply (I (fun m => ph (S m)) K); [intros m v Hm Hv; apply DE; [lia|assumption]|exact BO|exact Hu]. }
  change (Rabs (rest th) <= K). destruct (Rle_lt_or_eq_dec 0 th (proj1 Hth)) as [LT|EQ]; [|rewrite <- EQ, R0, Rabs_R0; assumption].
  destruct (MVT_cor2 rest rest' 0 th LT) as [c [E C]].
  { intros u Hu. unfold rest, rest'. apply derivable_pt_lim_minus; [apply DE; [lia|lra]|]. exact (poly_lim (fun m => ph m 0) p u). }
  rewrite R0, !Rminus_0_r in E. rewrite E, Rabs_mult, (Rabs_right th) by lra.
  specialize (BR c ltac:(lra)). rewrite <- (Rmult_1_r K). apply Rmult_le_compat; [apply Rabs_pos|lra|assumption|lra].
Qed.
Lemma form_bound N B d : 0 <= B -> 0 <= d -> forall us c, (forall idx, length idx = length us -> Rabs (c idx) <= B) -> (forall u j, In u us -> (j < N)%nat -> Rabs (u j) <= d) ->
  Rabs (form N c us) <= B * (INR N * d) ^ length us.
Proof.
  intros B0 D0. induction us as [|u us I]; intros c Hc Hu; simpl; [rewrite Rmult_1_r; apply Hc; reflexivity|].
  set (q := B * (INR N * d) ^ length us). assert (Q0 : 0 <= q) by (apply Rmult_le_pos; [assumption|apply pow_le, Rmult_le_pos; [apply pos_INR|assumption]]).
  replace (B * (INR N * d * (INR N * d) ^ length us)) with (INR N * (d * q)) by (unfold q; ring).
  assert (G : forall m, (m <= N)%nat -> Rabs (rsum m (fun i => u i * form N (fun l => c (i :: l)) us)) <= INR m * (d * q)).
  { induction m as [|m J]; intros Hm; [simpl; rewrite Rabs_R0; lra|]. rewrite S_INR. cbn [rsum]. eapply Rle_trans; [apply Rabs_triang|]. rewrite Rmult_plus_distr_r, Rmult_1_l.
    apply Rplus_le_compat; [apply J; lia|]. rewrite Rabs_mult. apply Rmult_le_compat; [apply Rabs_pos|apply Rabs_pos|apply Hu; [left; reflexivity|lia]|].
    apply I; [intros idx Li; apply Hc; simpl; rewrite Li; reflexivity|intros; apply Hu; [right; assumption|assumption]]. }
  apply G. lia.
Qed.
Lemma along_length n x v th : length (along n x v th) = n.
Proof. unfold along. rewrite map_length, seq_length. reflexivity. Qed.
Lemma along_at n x v th j : (j < n)%nat -> cmpR (along n x v th) j = cmpR x j + th * v (S j).
Proof. intros Hj. unfold along, cmpR at 1. exact (nth_map_seq n (fun j => cmpR x j + th * v (S j)) 0 j Hj). Qed.
Lemma cmp_ext n (x y : list R) : length x = n -> length y = n -> (forall j, (j < n)%nat -> cmpR x j = cmpR y j) -> x = y.
Proof. intros Lx Ly E. apply (nth_ext x y 0 0); [congruence|]. intros j Hj. apply E. lia. Qed.

Lemma smooth_from n p f E X t0 t1 rho B : derivatives n p f E -> 0 < rho -> 0 <= B -> (forall t, t0 <= t <= t1 -> length (X t) = n) ->
  bounded_near n p E X t0 t1 rho B -> smooth_along n p f X t0 t1.
Proof.
  intros [E0 E1] R0 B0 LX BN. exists (fun t => E t (X t)), rho, (B * INR (S n) ^ p + B).
  assert (PN : 0 <= INR (S n) ^ p) by (apply pow_le, pos_INR). assert (BP : 0 <= B * INR (S n) ^ p) by (apply Rmult_le_pos; assumption).
  split; [assumption|]. split; [lra|]. intros t Ht. split.
  - intros j idx Hj Hi. apply Rle_trans with B; [|lra]. apply (BN t t); [assumption|rewrite Rminus_eq_0, Rabs_R0; lra|apply LX; assumption| |assumption|lia].
    intros k Hk. rewrite Rminus_eq_0, Rabs_R0. lra.
  - intros s y d Ly Hs NR Hd j Hj. assert (D0 : 0 <= d) by (eapply Rle_trans; [apply Rabs_pos|exact Hs]).
    set (v := shift t (X t) s y). set (x := X t) in *. assert (Lx : length x = n) by (apply LX; assumption).
    set (ph := fun m th => form (S n) (E (t + th * v 0%nat) (along n x v th) j) (repeat v m)).
    assert (P0 : forall th, ph 0%nat th = cmpR (f (t + th * v 0%nat) (along n x v th)) j) by (intros th; unfold ph; simpl; apply E0; [apply along_length|assumption]).
    assert (A0 : along n x v 0 = x). { apply (cmp_ext n); [apply along_length|assumption|]. intros k Hk. rewrite along_at by assumption. ring. }
    assert (A1 : along n x v 1 = y). { apply (cmp_ext n); [apply along_length|assumption|]. intros k Hk. rewrite along_at by assumption. unfold v. simpl. ring. }
    assert (VD : forall k, (k < S n)%nat -> Rabs (v k) <= d). { intros [|k] Hk; [exact Hs|]. apply NR. lia. }
    assert (BO : forall th, 0 <= th <= 1 -> Rabs (ph p th) <= B * (INR (S n) * d) ^ p).
    { intros th Hth. unfold ph. rewrite <- (repeat_length v p) at 2. apply form_bound; [assumption|assumption| |].
      - intros idx Li. rewrite repeat_length in Li.
        assert (TH : forall k, (k < S n)%nat -> Rabs (th * v k) <= d).
        { intros k Hk. rewrite Rabs_mult, (Rabs_right th) by lra. rewrite <- (Rmult_1_l d). apply Rmult_le_compat; [lra|apply Rabs_pos|lra|apply VD; assumption]. }
        apply (BN t); [assumption| |apply along_length| |assumption|lia].
        + replace (t + th * v 0%nat - t) with (th * v 0%nat) by ring. eapply Rle_trans; [apply TH; lia|assumption].
        + intros k Hk. rewrite along_at by assumption. fold x. replace (cmpR x k + th * v (S k) - cmpR x k) with (th * v (S k)) by ring. eapply Rle_trans; [apply TH; lia|assumption].
      - intros u k Hu Hk. apply repeat_spec in Hu. subst u. apply VD. assumption. }
    pose proof (taylor1 p ph (B * (INR (S n) * d) ^ p) (fun m th Hm _ => E1 t x j v m th Lx Hj Hm) BO 1 ltac:(lra)) as TY.
    rewrite P0, A1 in TY. replace (t + 1 * v 0%nat) with s in TY by (unfold v; simpl; ring).
    rewrite (rsum_ext p _ (fun m => form (S n) (E t x j) (repeat v m) / INR (fact m))) in TY.
    2:{ intros m _. unfold ph. rewrite A0, Rmult_0_l, Rplus_0_r, pow1, Rmult_1_r. reflexivity. }
    eapply Rle_trans; [exact TY|]. rewrite Rpow_mult_distr. assert (0 <= B * d ^ p) by (apply Rmult_le_pos; [assumption|apply pow_le; assumption]). lra.
Qed.
