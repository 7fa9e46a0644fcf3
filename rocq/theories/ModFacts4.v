From Coq Require Import List Arith Bool ZArith QArith Qcanon Lia Lqa.
From Verif Require Import Base BaseFacts VecModel VOps RkModel RkSpec EvModel ModModel ModSpec.
Import ListNotations.
Local Open Scope nat_scope.

Section Chain.
Context (n : nat) (c0 c2 f : Qc).
Notation F := (cpl_force (N:=QcNum) c0 c2).
(** the force on mass i *)
Definition mass_force (x : list Qc) (i : nat) : Qc := ((if i + 1 =? n then f else F (spring x (i + 1))) - F (spring x i))%Qc.
Lemma cpl_ok t x : length x = 2 * n -> exists y, cpl_rhs (N:=QcNum) n c0 c2 f t x = Ret y /\ length y = 2 * n /\
  forall i, i < n -> cmp_ y i = cmp_ x (n + i) /\ cmp_ y (n + i) = mass_force x i.
Proof.
  intros L. unfold cpl_rhs.
  destruct (ofor_inv (fun k (y : list Qc) => length y = 2 * n /\ forall i, i < k -> cmp_ y i = cmp_ x (n + i) /\ cmp_ y (n + i) = mass_force x i) 0 n
    (cpl_body (N:=QcNum) n c0 c2 f x) (repeat (n0 QcNum) (2 * n))) as [y [E [Ly H]]]; try lia.
  - split; [apply repeat_length|]. intros i Hi. lia.
  - intros i y Hi [Ly IH]. unfold cpl_body. change (nT QcNum) with Qc in *.
    rewrite (rdat_ok x (n + i) 0%Qc) by lia. cbn [obind]. rewrite (wrat_ok y i) by lia. cbn [obind]. rewrite (rdat_ok x i 0%Qc) by lia. cbn [obind].
    assert (DP : (if 0 <? i then xp <- rdat x (i - 1) ;; Ret (nsub QcNum (nth i x 0%Qc) xp) else Ret (nth i x 0%Qc)) = Ret (spring x i)).
    { destruct i as [|j]; [reflexivity|]. cbn [Nat.ltb Nat.leb]. replace (S j - 1) with j by lia. rewrite (rdat_ok x j 0%Qc) by lia. reflexivity. }
    change (nT QcNum) with Qc in *. rewrite DP. cbn [obind].
    assert (FP : (if i + 1 <? n then xn <- rdat x (i + 1) ;; Ret (nadd QcNum (nopp QcNum (F (spring x i))) (F (nsub QcNum xn (nth i x 0%Qc))))
         else if i + 1 =? n then Ret (nadd QcNum (nopp QcNum (F (spring x i))) f) else Ret (nopp QcNum (F (spring x i)))) = Ret (mass_force x i)).
    { unfold mass_force. destruct (Nat.ltb_spec (i + 1) n) as [LT|GE].
      - rewrite (rdat_ok x (i + 1) 0%Qc) by lia. cbn [obind]. replace (i + 1 =? n) with false by (symmetry; apply Nat.eqb_neq; lia). f_equal.
        replace (i + 1) with (S i) by lia. change (spring x (S i)) with (nth (S i) x 0 - nth i x 0)%Qc.
        change (- F (spring x i) + F (nth (S i) x 0 - nth i x 0) = F (nth (S i) x 0 - nth i x 0) - F (spring x i))%Qc. ring.
      - replace (i + 1 =? n) with true by (symmetry; apply Nat.eqb_eq; lia). f_equal. change (- F (spring x i) + f = f - F (spring x i))%Qc. ring. }
    change (nT QcNum) with Qc in *. rewrite FP. cbn [obind]. rewrite (wrat_ok _ (n + i)) by (rewrite upd_length; lia).
    eexists. split; [reflexivity|]. split; [rewrite !upd_length; exact Ly|]. intros j Hj. unfold cmp_.
    destruct (Nat.eq_dec j i) as [->|NE].
    + split; [rewrite nth_upd_neq by lia; apply nth_upd_eq; lia|apply nth_upd_eq; rewrite upd_length; lia].
    + rewrite !(nth_upd_neq _ (n + i)) by lia. rewrite !(nth_upd_neq _ i) by lia. apply IH. lia.
  - exists y. auto.
Qed.
(** Summation by parts: the power of all forces is minus the rate of the springs' energy plus the power of the constant force. *)
Lemma power (x y : list Qc) : (forall i, i < n -> cmp_ y i = cmp_ x (n + i) /\ cmp_ y (n + i) = mass_force x i) ->
  (qsum n (fun i => cmp_ x (n + i) * cmp_ y (n + i)) + qsum n (fun i => F (spring x i) * spring y i) - f * (if n =? 0 then 0 else cmp_ y (n - 1)))%Qc = 0%Qc.
Proof.
  intros H. destruct n as [|m] eqn:En; [cbn; ring|]. cbn [Nat.eqb]. replace (S m - 1) with m by lia.
  assert (V : forall i, i < S m -> cmp_ y i = cmp_ x (S m + i)) by (intros i Hi; apply H; assumption).
  rewrite (qsum_ext (S m) _ (fun i => cmp_ y i * mass_force x i)%Qc) by (intros i Hi; rewrite <- V by assumption; rewrite (proj2 (H i Hi)); reflexivity).
  unfold mass_force. rewrite En.
  assert (K : forall k, k <= m -> (qsum k (fun i => cmp_ y i * ((if i + 1 =? S m then f else F (spring x (i + 1))) - F (spring x i))) + qsum k (fun i => F (spring x i) * spring y i)
    = match k with O => 0 | S j => cmp_ y j * F (spring x k) end)%Qc).
  { induction k as [|k IK]; intros Hk; [cbn; ring|]. cbn [qsum]. specialize (IK ltac:(lia)). replace (k + 1 =? S m) with false by (symmetry; apply Nat.eqb_neq; lia). replace (k + 1) with (S k) by lia.
    transitivity ((match k with O => 0 | S j => cmp_ y j * F (spring x k) end) + cmp_ y k * (F (spring x (S k)) - F (spring x k)) + F (spring x k) * spring y k)%Qc.
    - rewrite <- IK. ring.
    - destruct k as [|k]; cbn [spring]; ring. }
  specialize (K m ltac:(lia)). cbn [qsum]. replace (m + 1 =? S m) with true by (symmetry; apply Nat.eqb_eq; lia).
  transitivity ((match m with O => 0 | S j => cmp_ y j * F (spring x m) end) + cmp_ y m * (f - F (spring x m)) + F (spring x m) * spring y m - f * cmp_ y m)%Qc.
  - rewrite <- K. ring.
  - destruct m as [|j]; cbn [spring]; ring.
Qed.
Lemma moved_at N x y e i : i < N -> cmp_ (moved N x y e) i = (cmp_ x i + e * cmp_ y i)%Qc.
Proof.
  intros H. unfold moved, cmp_ at 1. rewrite (nth_indep _ 0%Qc (cmp_ x 0 + e * cmp_ y 0)%Qc) by (rewrite map_length, seq_length; exact H).
  rewrite (map_nth (fun i => (cmp_ x i + e * cmp_ y i)%Qc) (seq 0 N) 0 i). rewrite seq_nth by assumption. reflexivity.
Qed.
Lemma potential_moved d w e : (potential c0 c2 (d + e * w) = potential c0 c2 d + e * (F d * w)
  + e * e * ((c0 * (w * w) / qc 2 1 + qc 3 2 * (c2 * (d * d) * (w * w))) + e * (c2 * d * (w * w * w)) + e * e * (c2 * (w * w * (w * w)) / qc 4 1)))%Qc.
Proof.
  unfold potential, cpl_force. cbn [nmul nadd QcNum].
  assert (T2 : qc 2 1 = (1 + 1)%Qc) by (apply Qc_is_canon; reflexivity). assert (T4 : qc 4 1 = ((1 + 1) * (1 + 1))%Qc) by (apply Qc_is_canon; reflexivity).
  assert (T3 : qc 3 2 = ((1 + 1 + 1) / (1 + 1))%Qc) by (apply Qc_is_canon; reflexivity). rewrite T2, T4, T3. field. split; discriminate.
Qed.
Lemma chain t x : length x = 2 * n -> exists y q2 q3 q4, cpl_rhs (N:=QcNum) n c0 c2 f t x = Ret y /\ length y = 2 * n /\
  forall e, chain_energy n c0 c2 f (moved (2 * n) x y e) = (chain_energy n c0 c2 f x + e * e * (q2 + e * q3 + e * e * q4))%Qc.
Proof.
  intros L. destruct (cpl_ok t x L) as [y [E [Ly H]]].
  exists y, (qsum n (fun i => cmp_ y (n + i) * cmp_ y (n + i) / qc 2 1) + qsum n (fun i => c0 * (spring y i * spring y i) / qc 2 1 + qc 3 2 * (c2 * (spring x i * spring x i) * (spring y i * spring y i))))%Qc,
    (qsum n (fun i => c2 * spring x i * (spring y i * spring y i * spring y i)))%Qc, (qsum n (fun i => c2 * (spring y i * spring y i * (spring y i * spring y i)) / qc 4 1))%Qc.
  split; [assumption|]. split; [assumption|]. intros e. unfold chain_energy.
  rewrite (qsum_ext n (fun i => cmp_ (moved (2 * n) x y e) (n + i) * cmp_ (moved (2 * n) x y e) (n + i) / qc 2 1)%Qc
    (fun i => cmp_ x (n + i) * cmp_ x (n + i) / qc 2 1 + (e * (cmp_ x (n + i) * cmp_ y (n + i)) + e * e * (cmp_ y (n + i) * cmp_ y (n + i) / qc 2 1)))%Qc).
  2: { intros i Hi. rewrite moved_at by lia. assert (T2 : qc 2 1 = (1 + 1)%Qc) by (apply Qc_is_canon; reflexivity). rewrite T2. field. discriminate. }
  assert (SP : forall i, i < n -> spring (moved (2 * n) x y e) i = (spring x i + e * spring y i)%Qc).
  { intros [|j] Hi; cbn [spring]; rewrite !moved_at by lia; [reflexivity|ring]. }
  rewrite (qsum_ext n (fun i => potential c0 c2 (spring (moved (2 * n) x y e) i)) (fun i => potential c0 c2 (spring x i) + (e * (F (spring x i) * spring y i)
    + (e * e * (c0 * (spring y i * spring y i) / qc 2 1 + qc 3 2 * (c2 * (spring x i * spring x i) * (spring y i * spring y i)))
    + (e * e * e * (c2 * spring x i * (spring y i * spring y i * spring y i)) + e * e * e * e * (c2 * (spring y i * spring y i * (spring y i * spring y i)) / qc 4 1)))))%Qc).
  2: { intros i Hi. rewrite SP by assumption. rewrite potential_moved. ring. }
  rewrite !qsum_add, !qsum_scale. pose proof (power x y H) as P.
  assert (LASTT : (cmp_ (moved (2 * n) x y e) (n - 1) = cmp_ x (n - 1) + e * (if n =? 0 then 0 else cmp_ y (n - 1)))%Qc).
  { destruct n as [|m]; [destruct x; [|discriminate]; cbn; ring|]. cbn [Nat.eqb]. apply moved_at. lia. }
  rewrite LASTT. assert (P' : (qsum n (fun i => F (spring x i) * spring y i) = f * (if n =? 0 then 0 else cmp_ y (n - 1)) - qsum n (fun i => cmp_ x (n + i) * cmp_ y (n + i)))%Qc).
  { assert (RR : forall a u w : Qc, (a + u - w = 0)%Qc -> (u = w - a)%Qc) by (intros a u w HH; replace u with ((a + u - w) - a + w)%Qc by ring; rewrite HH; ring). apply RR. exact P. }
  rewrite P'. rewrite !qsum_add, !qsum_scale. ring.
Qed.
End Chain.
