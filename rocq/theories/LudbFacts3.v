(** LudbFacts3.v - the LU factorizer in doubles: if the solution and the pivots are finite, nothing has overflown, and the error bounds with underflow hold. *)
From Coq Require Import List Arith Bool ZArith Lia Reals Lra.
From Flocq Require Import Core IEEE754.BinarySingleNaN.
From Verif Require Import Base BaseFacts LUSpec LUModel ConvSpec ConvFacts ConvFacts3 StepSpec FpSpec FpFacts4 LufModel LufSpec LufFacts2 LufFacts3 LufFacts4 IeeeSpec IeeeFacts VdSpec VdFacts LudbSpec LudbFacts LudbFacts2.
Import ListNotations.
Local Open Scope R_scope.

Lemma real_sub (a b : double) : fin (nsub DNum a b) -> B2R (nsub DNum a b) = b64 (B2R a - B2R b).
Proof.
  intros F. destruct (fin_sub a b F) as [Fa Fb]. pose proof (Bminus_correct 53 1024 _ _ mode_NE a b Fa Fb) as C. destruct (Rlt_bool _ _); [exact (proj1 C)|].
  change (nsub DNum a b) with (Bminus mode_NE a b) in F. destruct C as [C _]. destruct (Bminus mode_NE a b); discriminate C || discriminate F.
Qed.
Lemma real_mul (a b : double) : fin (nmul DNum a b) -> B2R (nmul DNum a b) = b64 (B2R a * B2R b).
Proof.
  intros F. pose proof (Bmult_correct 53 1024 _ _ mode_NE a b) as C. destruct (Rlt_bool _ _); [exact (proj1 C)|].
  change (nmul DNum a b) with (Bmult mode_NE a b) in F. destruct (Bmult mode_NE a b); discriminate C || discriminate F.
Qed.
Lemma real_div (a b : double) : fin (ndiv DNum a b) -> B2R b <> 0 -> B2R (ndiv DNum a b) = b64 (B2R a / B2R b).
Proof.
  intros F NZ. pose proof (Bdiv_correct 53 1024 _ _ mode_NE a b NZ) as C. destruct (Rlt_bool _ _); [exact (proj1 C)|].
  change (ndiv DNum a b) with (Bdiv mode_NE a b) in F. destruct (Bdiv mode_NE a b); discriminate C || discriminate F.
Qed.
Lemma real_minus_all ks (l m : nat -> double) : forall v : double, fin (minus_all (N:=DNum) ks (fun k => nmul DNum (l k) (m k)) v) ->
  B2R (minus_all (N:=DNum) ks (fun k => nmul DNum (l k) (m k)) v : double) = minus_all (N:=FNum b64) ks (fun k => b64 (B2R (l k) * B2R (m k))) (B2R v).
Proof.
  induction ks as [|k ks I]; intros v F; [reflexivity|]. pose proof (fin_minus_all (k :: ks) _ v F) as [Fv Fg].
  change (fin (minus_all (N:=DNum) ks (fun k => nmul DNum (l k) (m k)) (nsub DNum v (nmul DNum (l k) (m k))))) in F. pose proof (fin_minus_all ks _ _ F) as [F1 _].
  change (B2R (minus_all (N:=DNum) ks (fun k => nmul DNum (l k) (m k)) (nsub DNum v (nmul DNum (l k) (m k))) : double) = minus_all (N:=FNum b64) ks (fun k => b64 (B2R (l k) * B2R (m k))) (b64 (B2R v - b64 (B2R (l k) * B2R (m k))))).
  rewrite I by exact F. rewrite real_sub by exact F1. rewrite real_mul by (apply Fg; left; reflexivity). reflexivity.
Qed.
Definition realE (e : entriesN DNum) : entriesN (FNum b64) := map (fun x => (fst x, B2R (snd x : double) : nT (FNum b64))) e.
Lemma existsb_real (P : nat * nat -> bool) e : existsb (fun x => P (fst x)) (realE e) = existsb (fun x => P (fst x)) e.
Proof. induction e as [|x e I]; [reflexivity|]. exact (f_equal (orb (P (fst x))) I). Qed.
Lemma sky_real e r c : sky (realE e) r c = sky e r c.
Proof. unfold sky. destruct (c <? r)%nat; [exact (existsb_real (fun q => (fst q =? r) && (snd q <=? c))%nat e)|exact (existsb_real (fun q => (snd q =? c) && (fst q <=? r))%nat e)]. Qed.
Lemma reaches_real e r c : reaches (realE e) r c = reaches e r c.
Proof. exact (existsb_real (fun q => (fst q =? r) && (c <=? snd q))%nat e). Qed.
Lemma mval_real e r c : mvalN (realE e) r c = B2R (mvalN e r c : double).
Proof. induction e as [|[[r' c'] v] e I]; [reflexivity|]. cbn. destruct ((r' =? r)%nat && (c' =? c)%nat); [reflexivity|exact I]. Qed.
Lemma stored_real e r c : storedN (realE e) r c <-> storedN e r c.
Proof.
  split; intros [v I].
  - apply in_map_iff in I as [[k w] [E I]]. injection E as -> _. exists w. exact I.
  - exists (B2R (v : double)). apply in_map_iff. exists ((r, c), v). split; [reflexivity|exact I].
Qed.
Lemma covers_real e n : coversN e n -> coversN (realE e) n.
Proof. intros C r c H (r' & L & S). destruct (C r c H) as (c' & L' & S'); [exists r'; split; [exact L|apply stored_real; exact S]|]. exists c'. split; [exact L'|apply stored_real; exact S']. Qed.

Section Sol.
Context (e : entriesN DNum) (n : nat) (L U : nat -> nat -> double).
Hypothesis D : doolittle (N:=DNum) e n L U.
Hypothesis PF : forall c, (c < n)%nat -> fin (U c c) /\ B2R (U c c) <> 0.
Hypothesis FL : forall r c, (c < r < n)%nat -> sky e r c = true -> fin (L r c).
Hypothesis FU : forall r c, (r <= c < n)%nat -> sky e r c = true -> fin (U r c).
Lemma doolittle_real : doolittle (N:=FNum b64) (realE e) n (realM L) (realM U).
Proof.
  destruct D as [D1 D2]. split.
  - intros r c H SK. rewrite sky_real in SK. pose proof (D1 r c H SK) as E. pose proof (FL r c H SK) as F. rewrite E in F. change (nT DNum) with double in *.
    unfold realM at 1. rewrite E. rewrite real_div by (exact F || apply PF; lia). rewrite real_minus_all by (apply fin_div in F; apply F). rewrite mval_real.
    rewrite (filter_ext (fun k => sky (realE e) r k && sky (realE e) k c) (fun k => sky e r k && sky e k c)) by (intros; rewrite !sky_real; reflexivity). reflexivity.
  - intros r c H SK. rewrite sky_real in SK. pose proof (D2 r c H SK) as E. pose proof (FU r c H SK) as F. rewrite E in F. change (nT DNum) with double in *.
    unfold realM at 1. rewrite E. rewrite real_minus_all by exact F. rewrite mval_real.
    rewrite (filter_ext (fun k => sky (realE e) r k && sky (realE e) k c) (fun k => sky e r k && sky e k c)) by (intros; rewrite !sky_real; reflexivity). reflexivity.
Qed.
Lemma substituted_real (b y x : nat -> double) : substituted (N:=DNum) e n L U b y x -> (forall r, (r < n)%nat -> fin (x r)) ->
  substituted (N:=FNum b64) (realE e) n (realM L) (realM U) (fun i => B2R (b i)) (fun i => B2R (y i)) (fun i => B2R (x i)).
Proof.
  intros [S1 S2] FX. assert (FY : forall r, (r < n)%nat -> fin (y r)) by (intros r Hr; exact (proj1 (row_finite e n L U b y x (conj S1 S2) r Hr (FX r Hr)))). split.
  - intros r H. pose proof (S1 r H) as E. pose proof (FY r H) as F. rewrite E in F. change (nT DNum) with double in *. cbv beta. rewrite E. rewrite real_minus_all by exact F.
    rewrite (filter_ext (sky (realE e) r) (sky e r)) by (intros; apply sky_real). reflexivity.
  - intros r H. pose proof (S2 r H) as E. pose proof (FX r H) as F. rewrite E in F. change (nT DNum) with double in *. cbv beta. rewrite E. rewrite real_div by (exact F || apply PF; lia).
    rewrite real_minus_all by (apply fin_div in F; apply F).
    rewrite (filter_ext (fun k => sky (realE e) r k && reaches (realE e) r k) (fun k => sky e r k && reaches e r k)) by (intros; rewrite sky_real, reaches_real; reflexivity). reflexivity.
Qed.
End Sol.
Lemma third n : INR n * U <= / 4 -> gam n U <= 1.
Proof. intros H. unfold gam. apply Rmult_le_reg_r with (1 - INR n * U); [lra|]. unfold Rdiv. rewrite Rmult_assoc, Rinv_l by lra. lra. Qed.
Lemma lu_accuracy (e : entriesN DNum) n : distinct_keys e -> acceptableN e n -> coversN e n -> INR n * / 2 ^ 53 <= / 4 ->
  exists (st st' : luN DNum) (L U : nat -> nat -> double), setMatrixN e = Ret st /\ factorizeN st = Ret st' /\ factorsN (N:=DNum) st' e n L U /\
    forall b : list double, length b = n -> exists x : list double, solveN st b = Ret (st', x) /\ solveN st' b = Ret (st', x) /\ length x = n /\
      ((forall r, (r < n)%nat -> is_finite (nth r x dzero) = true /\ is_finite (U r r) = true) ->
        (forall r c, (r < n)%nat -> (c < n)%nat -> Rabs (rsum n (fun k => lowR (realM L) r k * uppR (realM U) k c) - B2R (mvalN e r c : double)) <=
           gam n (/ 2 ^ 53) * rsum n (fun k => Rabs (lowR (realM L) r k) * Rabs (uppR (realM U) k c)) + tiny n (B2R (U c c))) /\
        (forall r, (r < n)%nat -> Rabs (rsum n (fun c => B2R (mvalN e r c : double) * val x c) - val b r) <=
           (3 * gam n (/ 2 ^ 53) + gam n (/ 2 ^ 53) * gam n (/ 2 ^ 53)) * rsum n (fun k => Rabs (lowR (realM L) r k) * rsum n (fun c => Rabs (uppR (realM U) k c) * Rabs (val x c))) +
           (rsum n (fun k => tiny n (B2R (U k k)) * Rabs (val x k)) + 2 * rsum n (fun k => Rabs (lowR (realM L) r k) * tiny n (B2R (U k k))) + INR n * / 2 ^ 1072))).
Proof.
  intros DK AC CV NB. destruct (@any_lu DNum e n DK AC) as (st & st' & L & V & E1 & E2 & E3 & F & D & H). exists st, st', L, V. split; [exact E1|]. split; [exact E2|]. split; [exact F|].
  intros b Lb. destruct (H b ltac:(rewrite <- Lb; apply le_n)) as (x & y & X1 & X2 & X3 & X4 & X5). exists x. split; [exact X1|]. split; [exact X2|]. split; [rewrite <- Lb; exact X3|]. change (n0 DNum) with dzero in *. change (nT DNum) with double in *. fold U in NB |- *.
  intros FX. assert (ROW := fun r Hr => row_finite e n L V _ y _ X5 r Hr (proj1 (FX r Hr))).
  assert (PF : forall c, (c < n)%nat -> fin (V c c) /\ B2R (V c c) <> 0).
  { intros c Hc. split; [apply FX; exact Hc|]. destruct (ROW c Hc) as (_ & _ & Z & _). pose proof (proj2 (FX c Hc)) as Q. intros B. destruct (V c c) as [s| | |s mm ee Hb]; [exact (Z s eq_refl)|discriminate Q|discriminate Q|].
    simpl in B. apply eq_0_F2R in B. destruct s; discriminate B. }
  assert (FL : forall r c, (c < r < n)%nat -> sky e r c = true -> fin (L r c)) by (intros r c Hc SK; destruct (ROW r ltac:(lia)) as (_ & _ & _ & _ & _ & Q & _); apply Q; [lia|exact SK]).
  assert (FU : forall r c, (r <= c < n)%nat -> sky e r c = true -> fin (V r c)).
  { intros r c Hc SK. destruct (Nat.eq_dec r c) as [<-|NE]; [apply PF; lia|]. destruct (ROW r ltac:(lia)) as (_ & _ & _ & _ & _ & _ & Q). apply Q; [lia|exact SK|]. apply (covered e n); [exact CV|lia|exact SK]. }
  pose proof (doolittle_real e n L V D PF FL FU) as DR. pose proof (substituted_real e n L V PF _ y _ X5 (fun r Hr => proj1 (FX r Hr))) as SR.
  assert (OUT : forall r c, (r < n)%nat -> (c < n)%nat -> sky (realE e) r c = false -> ((c < r)%nat -> realM L r c = 0) /\ ((r <= c)%nat -> realM V r c = 0)).
  { intros r c Hr Hc SK. rewrite sky_real in SK. destruct F as (_ & _ & F). destruct (F r c Hr Hc SK) as [Q1 Q2]. unfold realM. split; intros Q; [rewrite (Q1 Q)|rewrite (Q2 Q)]; reflexivity. }
  pose proof u_small as [U0 U1]. pose proof eta_small as [Z0 Z1].
  assert (RE : forall z, Rabs (b64 z - z) <= U * Rabs z + / 2 ^ 1075) by (intros z; exact (proj2 binary64_rounds z)).
  assert (GG : gg U n <= gam n U) by (apply gg_gam; lra). pose proof (third n NB) as G3. pose proof (gg_pos U ltac:(lra) ltac:(lra) n) as G0.
  assert (T8 : / 2 ^ 1072 = 8 * / 2 ^ 1075). { change 1075%nat with (1072 + 3)%nat. rewrite pow_add. field; apply pow_nonzero; lra. }
  assert (T4 : / 2 ^ 1073 = 4 * / 2 ^ 1075). { change 1075%nat with (1073 + 2)%nat. rewrite pow_add. field; apply pow_nonzero; lra. }
  assert (PV : forall c, (c < n)%nat -> realM V c c <> 0) by (intros c Hc; apply PF; exact Hc).
  unfold tiny. rewrite T8, T4. split.
  - intros r c Hr Hc. pose proof (product_errA b64 U (/ 2 ^ 1075) RE ltac:(lra) ltac:(lra) ltac:(lra) n (realE e) (realM L) (realM V) OUT DR PV ltac:(lra) r c Hr Hc) as P. rewrite mval_real in P. eapply Rle_trans; [exact P|]. rewrite Rplus_assoc.
    apply Rplus_le_compat_r. apply Rmult_le_compat_r; [apply rsum_nonneg; intros; apply Rmult_le_pos; apply Rabs_pos|exact GG].
  - intros r Hr. pose proof (residual_errA b64 U (/ 2 ^ 1075) RE ltac:(lra) ltac:(lra) ltac:(lra) n (realE e) (realM L) (realM V) OUT DR PV ltac:(lra) (covers_real e n CV) _ _ _ SR r Hr) as P.
    cbv beta in P. change (fun i : nat => B2R (nth i x dzero)) with (val x) in P.
    rewrite (rsum_ext n (fun c => mvalN (realE e) r c * B2R (nth c x dzero)) (fun c => B2R (mvalN e r c : double) * val x c)) in P by (intros; rewrite mval_real; reflexivity).
    eapply Rle_trans; [exact P|]. apply Rplus_le_compat_r. apply Rmult_le_compat_r; [apply rsum_nonneg; intros; apply Rmult_le_pos; [apply Rabs_pos|apply rsum_nonneg; intros; apply Rmult_le_pos; apply Rabs_pos]|].
    assert (gg U n * gg U n <= gam n U * gam n U) by (apply Rmult_le_compat; assumption). lra.
Qed.
