(** HighFacts3.v - the exact solution as a sum over trees. *)
From Coq Require Import List Arith Lia Bool Reals Lra.
From Verif Require Import Base VecModel VOps RkModel RkSpec RkFacts4 StepSpec ConvSpec ConvFacts ConvFacts3 ConvFacts4 HighSpec HighFacts HighFacts2.
Import ListNotations.
Local Open Scope R_scope.

Lemma form_ext N m : forall us c c', length us = m -> (forall idx, length idx = m -> c idx = c' idx) -> form N c us = form N c' us.
Proof.
  induction m as [|m I]; intros [|u us] c c' L E; simpl in L; try lia; simpl; [apply E; reflexivity|]. apply rsum_ext. intros i Hi. f_equal.
  apply I; [lia|]. intros idx Li. apply E. simpl. lia.
Qed.
Lemma form_zero N : forall us, form N (fun _ => 0) us = 0.
Proof. induction us as [|u us I]; simpl; [reflexivity|]. rewrite (rsum_ext N _ (fun _ => 0)); [|intros i Hi; rewrite I; ring]. clear. induction N; simpl; [reflexivity|]. lra. Qed.
(** the coefficients of the right-hand side completed by time' = 1 *)
Definition caug (D : nat -> list nat -> R) (j : nat) (idx : list nat) : R := match j with O => match idx with [] => 1 | _ => 0 end | S k => D k idx end.
Lemma time_row N D u p : (0 < p)%nat -> rsum p (fun m => form N (caug D 0) (repeat u m) / INR (fact m)) = 1.
Proof.
  intros Hp. induction p as [|p I]; [lia|]. destruct p as [|p]; [simpl; field|]. change (rsum (S (S p)) ?g) with (rsum (S p) g + g (S p)). rewrite I by lia.
  cbn [repeat form]. rewrite (rsum_ext N _ (fun _ => 0)).
  - assert (Z : rsum N (fun _ => 0) = 0) by (clear; induction N; simpl; [reflexivity|lra]). rewrite Z. unfold Rdiv. ring.
  - intros i Hi. cbv beta. rewrite (form_ext N p (repeat u p) _ (fun _ => 0)); [rewrite form_zero; ring|apply repeat_length|reflexivity].
Qed.
Lemma density_pos t : (0 < density t)%nat.
Proof.
  revert t. fix REC 1. intros [l]. rewrite density_Node. apply Nat.mul_pos_pos; [lia|].
  induction l as [|t l I]; [simpl; lia|]. simpl. apply Nat.mul_pos_pos; [apply REC|exact I].
Qed.
Lemma order_pos t : (0 < order t)%nat.
Proof. destruct t as [l]. rewrite order_Node. lia. Qed.
Definition gam (t : tree) : R := / INR (density t).
Lemma gam_kids t : kids gam t = INR (order t) * gam t.
Proof.
  destruct t as [l]. simpl kids. unfold gam at 2. rewrite order_Node, density_Node, mult_INR. rewrite Rinv_mult.
  assert (K : lprod l gam = / INR (fdens l)).
  { induction l as [|t l I]; [unfold lprod; simpl; field|]. unfold lprod in *. simpl fold_right. rewrite I. unfold gam. simpl fdens. rewrite mult_INR, Rinv_mult. reflexivity. }
  rewrite K. field. split; apply not_0_INR; [|lia].
  assert (0 < fdens l)%nat; [|lia]. clear. induction l as [|t l I]; simpl; [lia|]. apply Nat.mul_pos_pos; [apply density_pos|exact I].
Qed.
Lemma lim_pow t k w : derivable_pt_lim (fun w => (w - t) ^ k) w (INR k * (w - t) ^ (k - 1)).
Proof.
  replace (INR k * (w - t) ^ (k - 1)) with ((INR k * (w - t) ^ pred k) * (1 - 0)) by (rewrite Nat.sub_1_r; ring).
  apply (derivable_pt_lim_comp (fun w => w - t) (fun y => y ^ k) w (1 - 0)); [|apply derivable_pt_lim_pow].
  apply derivable_pt_lim_minus; [apply derivable_pt_lim_id|apply derivable_pt_lim_const].
Qed.
Lemma lim_lsum {A} (L : list A) g g' w : (forall a, In a L -> derivable_pt_lim (fun w => g w a) w (g' a)) -> derivable_pt_lim (fun w => lsum L (g w)) w (lsum L g').
Proof.
  induction L as [|a L I]; intros E; simpl; [apply derivable_pt_lim_const|].
  apply (derivable_pt_lim_plus (fun w => g w a) (fun w => lsum L (g w))); [apply E; left; reflexivity|apply I; intros; apply E; right; assumption].
Qed.

Section Exact.
Context (n p : nat) (f : R -> list R -> list R) (X : R -> list R) (t0 T : R) (D : R -> nat -> list nat -> R) (rho B M H : R).
Hypothesis Hp : (0 < p)%nat.
Hypothesis SO : solves n f X t0 (t0 + T).
Hypothesis HM : 0 <= M.
Hypothesis HB0 : 0 <= B.
Hypothesis HB : forall t j, t0 <= t <= t0 + T -> (j < n)%nat -> Rabs (cmpR (f t (X t)) j) <= M.
Hypothesis HT : forall t, t0 <= t <= t0 + T -> taylor n p f t (X t) (D t) rho B.
Hypothesis HR : (1 + M) * H <= rho.
Definition validX (i : R * R) : Prop := t0 <= fst i /\ 0 < snd i <= H /\ fst i + snd i <= t0 + T.
Definition uX (i : R * R) : nat -> R := shift (fst i) (X (fst i)) (fst i + snd i) (X (fst i + snd i)).
Definition gX (i : R * R) (j : nat) : R := match j with O => 1 | S k => cmpR (f (fst i + snd i) (X (fst i + snd i))) k end.
Definition cX (i : R * R) : nat -> list nat -> R := caug (D (fst i)).
Notation bigX := (big validX snd (fun _ => 0)).
Lemma vX i : validX i -> 0 < snd i <= H. Proof. intros V. apply V. Qed.
Lemma dX (i : R * R) : validX i -> 0 <= (fun _ : R * R => 0) i <= 1. Proof. intros _. lra. Qed.
Lemma cX_big j idx : (j < S n)%nat -> (length idx < p)%nat -> bigX 0 (fun i => cX i j idx).
Proof.
  intros Hj Hi. destruct j as [|j]; simpl.
  - apply (big_const validX snd (fun _ => 0) dX).
  - apply (big_bound validX snd (fun _ => 0) dX _ B). intros i V. unfold cX, caug. apply (HT (fst i)); [destruct V as [V1 [V2 V3]]; lra|lia|assumption].
Qed.
Lemma uX_first j i : validX i -> (j < S n)%nat -> Rabs (uX i j) <= (1 + M) * snd i.
Proof.
  destruct i as [t h]. intros [V1 [V2 V3]] Hj. simpl in V1, V2, V3. assert (MH : 0 <= M * h) by (apply Rmult_le_pos; lra). destruct j as [|j]; simpl.
  - replace (t + h - t) with h by ring. rewrite Rabs_right by lra. lra.
  - assert (K : near n (X (t + h)) (X t) (M * (t + h - t))).
    { apply (moves n f M X t (t + h)); [lra|intros u Hu; apply SO; lra|intros u k Hu Hk; apply HB; [lra|assumption]]. }
    specialize (K j ltac:(lia)). lra.
Qed.
Lemma gX_taylor j : (j < S n)%nat -> bigX p (fun i => gX i j - rsum p (fun m => form (S n) (cX i j) (repeat (uX i) m) / INR (fact m))).
Proof.
  intros Hj. destruct j as [|j].
  - apply (big_ext validX snd (fun _ => 0) p (fun _ => 0)); [|apply (big_zero validX snd (fun _ => 0) dX)]. intros i V. unfold cX. rewrite (time_row (S n) (D (fst i)) (uX i) p Hp). simpl. ring.
  - apply (big_le validX snd (fun _ => 0) dX p _ (B * (1 + M) ^ p)); [apply Rmult_le_pos; [assumption|apply pow_le; lra]|].
    intros i V. rewrite Rmult_assoc, <- Rpow_mult_distr. pose proof (uX_first) as U. pose proof V as W. destruct i as [t h]. destruct W as [V1 [V2 V3]]. simpl in V1, V2, V3.
    destruct (HT t ltac:(lra)) as [_ TY]. simpl.
    assert (MH : 0 <= M * h) by (apply Rmult_le_pos; lra).
    apply (TY (t + h) (X (t + h)) ((1 + M) * h)); [apply SO; lra| | | |lia].
    + replace (t + h - t) with h by ring. rewrite Rabs_right by lra. lra.
    + intros k Hk. exact (U (S k) (t, h) V ltac:(lia)).
    + eapply Rle_trans; [|exact HR]. apply Rmult_le_compat_l; lra.
Qed.
Lemma exact_series d : (d <= p)%nat -> forall j, (j < S n)%nat -> bigX (S d) (fun i => uX i j - series snd (S n) p cX (fun _ => gam) d i j).
Proof.
  induction d as [|d I]; intros Hd j Hj.
  - apply (big_le validX snd (fun _ => 0) dX 1 _ (1 + M)); [lra|]. intros i V. unfold series. simpl lsum. rewrite Rminus_0_r, pow_1. apply uX_first; assumption.
  - assert (Hdp : (d < p)%nat) by lia.
    pose proof (compose validX snd (fun _ => 0) H vX dX (S n) p cX cX_big d (fun _ => gam) uX gX Hdp (fun t _ => big_const validX snd (fun _ => 0) dX (gam t))
       (I ltac:(lia)) gX_taylor j Hj) as [C [C0 HC]].
    apply (big_le validX snd (fun _ => 0) dX (S (S d)) _ C C0). intros [t h] V. pose proof V as [V1 [V2 V3]]. simpl in V1, V2, V3.
    set (Fz := fun tr => diffl (S n) (caug (D t)) tr j).
    set (DF := fun w => shift t (X t) w (X w) j - lsum (trees p (S d)) (fun tr => ((w - t) ^ order tr * gam tr * cf tr) * Fz tr)).
    set (DG := fun w => match j with O => 1 | S k => cmpR (f w (X w)) k end - lsum (trees p (S d)) (fun tr => (w - t) ^ (order tr - 1) * (INR (order tr) * gam tr) * cf tr * Fz tr)).
    destruct (MVT_cor2 DF DG t (t + h)) as [cc [E [C1 C2]]]; [lra| |].
    { intros w Hw. apply derivable_pt_lim_minus.
      - destruct j as [|j]; simpl.
        + replace 1 with (1 - 0) by ring. apply derivable_pt_lim_minus; [apply derivable_pt_lim_id|apply derivable_pt_lim_const].
        + replace (cmpR (f w (X w)) j) with (cmpR (f w (X w)) j - 0) by ring. apply (derivable_pt_lim_minus (fun w => cmpR (X w) j)); [|apply derivable_pt_lim_const].
          apply SO; [lra|lia].
      - apply (lim_lsum (trees p (S d)) (fun w tr => (w - t) ^ order tr * gam tr * cf tr * Fz tr)). intros tr _.
        replace ((w - t) ^ (order tr - 1) * (INR (order tr) * gam tr) * cf tr * Fz tr) with ((gam tr * cf tr * Fz tr) * (INR (order tr) * (w - t) ^ (order tr - 1))) by ring.
        intros eps He. destruct (derivable_pt_lim_scal (fun w => (w - t) ^ order tr) (gam tr * cf tr * Fz tr) w _ (lim_pow t (order tr) w) eps He) as [del HDel].
        exists del. intros k Hk0 Hk. specialize (HDel k Hk0 Hk). unfold mult_real_fct in HDel.
        replace ((w + k - t) ^ order tr * gam tr * cf tr * Fz tr - (w - t) ^ order tr * gam tr * cf tr * Fz tr) with
          (gam tr * cf tr * Fz tr * (w + k - t) ^ order tr - gam tr * cf tr * Fz tr * (w - t) ^ order tr) by ring. exact HDel. }
    assert (Z0 : DF t = 0).
    { unfold DF. rewrite (lsum_ext _ _ (fun _ => 0)).
      - assert (LZ : forall l : list tree, lsum l (fun _ => 0) = 0) by (induction l; simpl; lra). rewrite LZ. destruct j; simpl; ring.
      - intros tr _. rewrite Rminus_eq_0. rewrite pow_i by (apply order_pos). ring. }
    assert (EQ : uX (t, h) j - series snd (S n) p cX (fun _ => gam) (S d) (t, h) j = DF (t + h)).
    { unfold DF, uX, series. cbn [fst snd]. f_equal. apply lsum_ext. intros tr _. unfold cX. cbn [fst]. replace (t + h - t) with h by ring. reflexivity. }
    rewrite EQ. replace (DF (t + h)) with (DG cc * (t + h - t)) by lra.
    replace (t + h - t) with h by ring. rewrite Rabs_mult, (Rabs_right h) by lra.
    assert (VC : validX (t, cc - t)) by (unfold validX; simpl; lra).
    specialize (HC (t, cc - t) VC). cbn [fst snd] in HC. unfold cX, gX in HC. cbn [fst snd] in HC. replace (t + (cc - t)) with cc in HC by ring.
    rewrite (lsum_ext (trees p (S d)) (fun t1 => (cc - t) ^ (order t1 - 1) * kids gam t1 * cf t1 * diffl (S n) (caug (D t)) t1 j)
       (fun tr => (cc - t) ^ (order tr - 1) * (INR (order tr) * gam tr) * cf tr * Fz tr)) in HC by (intros tr _; rewrite gam_kids; reflexivity).
    fold (DG cc) in HC. rewrite Rplus_0_r in HC.
    cbn [snd]. rewrite (Rmult_comm (Rabs (DG cc))). replace (C * h ^ S (S d)) with (h * (C * h ^ S d)) by (simpl; ring).
    apply Rmult_le_compat_l; [lra|]. eapply Rle_trans; [exact HC|]. apply Rmult_le_compat_l; [assumption|]. apply pow_incr. lra.
Qed.
End Exact.
