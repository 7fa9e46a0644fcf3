(** LufFacts6.v - LU solution of systems dominated by the diagonal in rounded arithmetic: no zero pivot, residual, error. *)
From Coq Require Import List Arith Lia Bool ZArith QArith Qcanon Reals Lra.
From Verif Require Import Base BaseFacts LUSpec LUModel ConvSpec ConvFacts ConvFacts3 StepSpec FpSpec LufModel LufSpec LufFacts LufFacts2 LufFacts3 LufFacts4 RopFacts2 LudSpec LufFacts5.
Import ListNotations.
Local Open Scope R_scope.

Lemma sky_diag {N : Num} (e : entriesN N) n i : acceptableN e n -> (i < n)%nat -> sky e i i = true.
Proof.
  intros [_ H] Hi. destruct (H i Hi) as [_ [r [S L]]]. unfold sky. rewrite Nat.ltb_irrefl. apply (existsb_keys (fun a b => (b =? i) && (a <=? i))%nat). exists r, i. split; [exact S|]. rewrite Nat.eqb_refl. apply Nat.leb_le. exact L.
Qed.
Lemma rows_ok rnd u n (e : entriesN (FNum rnd)) L U : relative rnd u -> 0 <= u -> u <= 1 -> acceptableN e n ->
  (forall r c, (r < n)%nat -> (c < n)%nat -> sky e r c = false -> ((c < r)%nat -> L r c = 0) /\ ((r <= c)%nat -> U r c = 0)) -> doolittle e n L U -> dominant_by (loss n u) n (mvalN e) ->
  forall r, (r < n)%nat -> U r r <> 0 /\ rsum n (fun c => if (r <? c)%nat then Rabs (U r c) else 0) <= Rabs (U r r).
Proof.
  intros RE U0 U1 HA OUT DO DOM r. induction r as [r IH] using (well_founded_induction lt_wf). intros Hr.
  apply (row_ok rnd u n e L U RE U0 U1 OUT DO r Hr); [intros m Hm; apply IH; [exact Hm|lia]|apply (sky_diag e n); assumption|apply DOM; exact Hr].
Qed.
Lemma dominant_lu rnd u n (e : entriesN (FNum rnd)) : relative rnd u -> 0 <= u -> INR n * u < 1 -> distinct_keys e -> acceptableN e n -> dominant_by (loss n u) n (mvalN e) ->
  exists st st' L U, setMatrixN e = Ret st /\ factorizeN st = Ret st' /\ factorsN st' e n L U /\ (forall c, (c < n)%nat -> U c c <> 0) /\
    (forall r, (r < n)%nat -> rsum n (fun c => if (r <? c)%nat then Rabs (U r c) else 0) <= Rabs (U r r)) /\
    (coversN e n -> forall b, length b = n -> exists x, solveN st b = Ret (st', x) /\ solveN st' b = Ret (st', x) /\ length x = n /\
      forall X, (forall c, (c < n)%nat -> Rabs (cmpR x c) <= X) -> forall r, (r < n)%nat ->
        Rabs (rsum n (fun c => mvalN e r c * cmpR x c) - cmpR b r) <= kap n u * rsum n (fun c => Rabs (mvalN e r c)) * X).
Proof.
  intros RE U0 NU ND HA DOM. destruct (any_lu e n ND HA) as [st [st' [L [U [E1 [E2 [_ [FA [DO SO]]]]]]]]]. exists st, st', L, U. split; [exact E1|]. split; [exact E2|]. split; [exact FA|].
  assert (U1 : (0 < n)%nat -> u < 1). { intros Hn. assert (1 <= INR n) by (apply (le_INR 1); lia). assert (1 * u <= INR n * u) by (apply Rmult_le_compat_r; lra). lra. }
  assert (RO : forall r, (r < n)%nat -> U r r <> 0 /\ rsum n (fun c => if (r <? c)%nat then Rabs (U r c) else 0) <= Rabs (U r r)).
  { intros r Hr. assert (u1 : u < 1) by (apply U1; lia). apply (rows_ok rnd u n e L U RE U0 ltac:(lra) HA (proj2 (proj2 FA)) DO DOM r Hr). }
  assert (PIV : forall c, (c < n)%nat -> U c c <> 0) by (intros; apply RO; assumption).
  split; [exact PIV|]. split; [intros; apply RO; assumption|].
  intros CO b Lb. destruct (SO b) as [x [y [S1 [S2 [Lx [_ SU]]]]]]; [lia|]. exists x. split; [exact S1|]. split; [exact S2|]. split; [lia|]. intros X HX r Hr.
  assert (u1 : u < 1) by (apply U1; lia). eapply Rle_trans; [apply (residual_err rnd u n e L U RE U0 u1 (proj2 (proj2 FA)) DO PIV CO (cmpR b) y (cmpR x) SU r Hr)|].
  pose proof (gg_gam u n U0 u1 NU) as GG. pose proof (gg_pos u U0 u1 n) as G0. assert (G2 : gg u n * gg u n <= gam n u * gam n u) by (apply Rmult_le_compat; assumption).
  assert (SZ := size_row rnd u n e L U RE U0 ltac:(lra) (proj2 (proj2 FA)) DO r Hr ltac:(intros m Hm; apply RO; lia) (sky_diag e n r HA Hr) (DOM r Hr) X (cmpR x) HX).
  apply Rle_trans with ((3 * gam n u + gam n u * gam n u) * (INR n * (2 * (1 + u) * (1 + 8 * u) ^ n * rsum n (fun c => Rabs (mvalN e r c)) * X))); [|right; unfold kap; ring].
  apply Rmult_le_compat; [|apply rsum_nonneg; intros; apply Rmult_le_pos; [apply Rabs_pos|apply rsum_nonneg; intros; apply Rmult_le_pos; apply Rabs_pos]|lra|exact SZ].
  assert (0 <= gg u n * gg u n) by (apply Rmult_le_pos; assumption). lra.
Qed.
Lemma rel_id : relative (fun z => z) 0.
Proof. intros z. rewrite Rminus_eq_0, Rabs_R0. lra. Qed.
Lemma dom_less d d' n A : d' <= d -> dominant_by d n A -> dominant_by d' n A.
Proof.
  intros H D r Hr. specialize (D r Hr). assert (d' * rsum n (fun c => Rabs (A r c)) <= d * rsum n (fun c => Rabs (A r c))); [|lra].
  apply Rmult_le_compat_r; [|exact H]. apply rsum_nonneg. intros; apply Rabs_pos.
Qed.
Lemma max_at n (x : nat -> R) : (0 < n)%nat -> exists i, (i < n)%nat /\ forall j, (j < n)%nat -> Rabs (x j) <= Rabs (x i).
Proof.
  induction n as [|k I]; [lia|]. intros _. destruct (Nat.eq_dec k 0) as [->|Z].
  - exists 0%nat. split; [lia|]. intros j Hj. replace j with 0%nat by lia. lra.
  - destruct (I ltac:(lia)) as (i & Hi & M). destruct (Rle_lt_dec (Rabs (x k)) (Rabs (x i))) as [L|L].
    + exists i. split; [lia|]. intros j Hj. destruct (Nat.eq_dec j k) as [->|]; [exact L|apply M; lia].
    + exists k. split; [lia|]. intros j Hj. destruct (Nat.eq_dec j k) as [->|]; [lra|]. specialize (M j ltac:(lia)). lra.
Qed.
(** A bound of A d gives a bound of d. *)
Lemma dom_inverse mu n (A : nat -> nat -> R) d K : 0 < mu -> 0 <= K -> dominant_by mu n A -> (forall r, (r < n)%nat -> Rabs (rsum n (fun c => A r c * d c)) <= K * rsum n (fun c => Rabs (A r c))) ->
  forall i, (i < n)%nat -> Rabs (d i) <= K / mu.
Proof.
  intros M0 K0 D B j Hj. destruct (max_at n d ltac:(lia)) as (i & Hi & MX). specialize (D i Hi). specialize (B i Hi). apply Rle_trans with (Rabs (d i)); [apply MX; exact Hj|]. clear j Hj.
  set (S := rsum n (fun c => Rabs (A i c))) in *. set (T := rsum n (fun c => if Nat.eqb c i then 0 else Rabs (A i c))) in *.
  assert (T0 : 0 <= T). { apply rsum_nonneg. intros c _. destruct (Nat.eqb c i); [lra|apply Rabs_pos]. }
  assert (ST : S = Rabs (A i i) + T) by (unfold S, T; exact (rsum_remove n i (fun c => Rabs (A i c)) Hi)).
  assert (S0 : 0 < S). { destruct (Rle_lt_dec S 0) as [N|N]; [|exact N]. exfalso. pose proof (Rabs_pos (A i i)). assert (S = 0) as Z by lra. rewrite Z in D. lra. }
  rewrite (rsum_remove n i) in B by exact Hi. set (Q := rsum n (fun c => if Nat.eqb c i then 0 else A i c * d c)) in *.
  assert (QB : Rabs Q <= T * Rabs (d i)).
  { unfold Q, T. eapply Rle_trans; [apply rsum_abs|]. rewrite rsum_mult. apply rsum_le. intros c Hc. destruct (Nat.eqb c i); [rewrite Rabs_R0; lra|]. rewrite Rabs_mult. apply Rmult_le_compat_l; [apply Rabs_pos|apply MX; exact Hc]. }
  assert (AB : Rabs (A i i) * Rabs (d i) <= K * S + T * Rabs (d i)).
  { pose proof (Rabs_triang (A i i * d i + Q) (- Q)) as TR. replace (A i i * d i + Q + - Q) with (A i i * d i) in TR by ring. rewrite Rabs_mult, Rabs_Ropp in TR. lra. }
  pose proof (Rabs_pos (d i)) as D0. assert (C : (mu * S) * Rabs (d i) <= K * S). { assert ((T + mu * S) * Rabs (d i) <= Rabs (A i i) * Rabs (d i)) by (apply Rmult_le_compat_r; lra). lra. }
  apply Rmult_le_reg_r with (mu * S); [apply Rmult_lt_0_compat; assumption|]. replace (K / mu * (mu * S)) with (K * S) by (field; lra). lra.
Qed.
Lemma loss_pos n u : 0 <= u -> 0 <= loss n u.
Proof. intros H. unfold loss. assert (1 <= (1 + 8 * u) ^ n) by (apply pow_R1_Rle; lra). lra. Qed.
Lemma kap_pos n u : 0 <= u -> INR n * u < 1 -> 0 <= kap n u.
Proof.
  intros H N. unfold kap. assert (I := pos_INR n). assert (G : 0 <= gam n u). { unfold gam. apply Rmult_le_pos; [apply Rmult_le_pos; assumption|]. left. apply Rinv_0_lt_compat. lra. }
  assert (0 <= gam n u * gam n u) by (apply Rmult_le_pos; assumption). apply Rmult_le_pos; [lra|]. apply Rmult_le_pos; [exact I|]. apply Rmult_le_pos; [lra|]. apply pow_le. lra.
Qed.
Lemma mval_same rnd rnd' (e : list ((nat * nat) * R)) r c : mvalN (N:=FNum rnd) e r c = mvalN (N:=FNum rnd') e r c.
Proof. induction e as [|[[r' c'] v] t I]; [reflexivity|]. cbn [mvalN]. destruct ((r' =? r) && (c' =? c))%nat; [reflexivity|exact I]. Qed.
Lemma dom_same rnd rnd' d n (e : list ((nat * nat) * R)) : dominant_by d n (mvalN (N:=FNum rnd) e) -> dominant_by d n (mvalN (N:=FNum rnd') e).
Proof.
  intros D r Hr. specialize (D r Hr). rewrite (mval_same rnd' rnd). rewrite (rsum_ext n _ (fun c => if Nat.eqb c r then 0 else Rabs (mvalN (N:=FNum rnd) e r c))) by (intros; rewrite (mval_same rnd' rnd); reflexivity).
  rewrite (rsum_ext n (fun c => Rabs (mvalN (N:=FNum rnd') e r c)) (fun c => Rabs (mvalN (N:=FNum rnd) e r c))) by (intros; rewrite (mval_same rnd' rnd); reflexivity). exact D.
Qed.
(** The exact solution, found by the same program without rounding. *)
Lemma exact_solution rnd n (e : entriesN (FNum rnd)) (b : list R) : distinct_keys e -> acceptableN e n -> coversN e n -> dominant_by 0 n (mvalN e) -> length b = n ->
  exists z, forall r, (r < n)%nat -> rsum n (fun c => mvalN e r c * z c) = cmpR b r.
Proof.
  intros ND HA CO D Lb. set (i := fun z : R => z). set (e' := e : entriesN (FNum i)).
  assert (D' : dominant_by (loss n 0) n (mvalN e')). { replace (loss n 0) with 0; [exact (dom_same rnd i 0 n e D)|]. unfold loss. rewrite Rmult_0_r, Rplus_0_r, pow1. ring. }
  destruct (dominant_lu i 0 n e' rel_id ltac:(lra) ltac:(lra) ND HA D') as (st & st' & L & U & _ & _ & _ & _ & _ & SO).
  destruct (SO CO b Lb) as (x & _ & _ & _ & B). exists (cmpR x). intros r Hr.
  destruct (max_at n (cmpR x) ltac:(lia)) as (j & _ & MX). specialize (B (Rabs (cmpR x j)) MX r Hr).
  assert (kap n 0 = 0) as K0. { unfold kap, gam, Rdiv. rewrite Rmult_0_r, Rmult_0_l. ring. }
  rewrite K0, !Rmult_0_l in B. match type of B with Rabs ?a <= 0 => assert (Z : a = 0) by (destruct (Req_dec a 0) as [Q|Q]; [exact Q|apply Rabs_pos_lt in Q; lra]) end.
  apply Rminus_diag_uniq in Z. rewrite <- Z. apply rsum_ext. intros c _. f_equal. apply (mval_same rnd i e).
Qed.
Lemma dominant_error rnd u mu n (e : entriesN (FNum rnd)) b : relative rnd u -> 0 <= u -> INR n * u < 1 -> distinct_keys e -> acceptableN e n -> coversN e n ->
  0 < mu -> loss n u <= mu -> dominant_by mu n (mvalN e) -> length b = n ->
  exists st st' x z, setMatrixN e = Ret st /\ solveN st b = Ret (st', x) /\ length x = n /\
    (forall r, (r < n)%nat -> rsum n (fun c => mvalN e r c * z c) = cmpR b r) /\
    (forall y, (forall r, (r < n)%nat -> rsum n (fun c => mvalN e r c * y c) = cmpR b r) -> forall i, (i < n)%nat -> y i = z i) /\
    forall X, (forall c, (c < n)%nat -> Rabs (cmpR x c) <= X) -> forall i, (i < n)%nat -> Rabs (cmpR x i - z i) <= kap n u / mu * X.
Proof.
  intros RE U0 NU ND HA CO M0 LM D Lb. pose proof (loss_pos n u U0) as LP.
  destruct (dominant_lu rnd u n e RE U0 NU ND HA (dom_less _ _ _ _ LM D)) as (st & st' & L & U & E1 & _ & _ & _ & _ & SO). destruct (SO CO b Lb) as (x & S1 & _ & Lx & B).
  destruct (exact_solution rnd n e b ND HA CO (dom_less mu 0 n _ ltac:(lra) D) Lb) as (z & Hz). exists st, st', x, z. split; [exact E1|]. split; [exact S1|]. split; [exact Lx|]. split; [exact Hz|]. split.
  - intros y Hy i Hi. assert (Q : Rabs (y i - z i) <= 0 / mu).
    { apply (dom_inverse mu n (mvalN e) (fun i => y i - z i) 0 M0 ltac:(lra) D); [|exact Hi]. intros r Hr. rewrite (rsum_ext n _ (fun c => mvalN e r c * y c - mvalN e r c * z c)) by (intros; apply Rmult_minus_distr_l).
      rewrite <- rsum_minus, Hy, Hz by exact Hr. rewrite Rminus_eq_0, Rabs_R0. lra. }
    unfold Rdiv in Q. rewrite Rmult_0_l in Q. destruct (Req_dec (y i - z i) 0) as [W|W]; [lra|]. apply Rabs_pos_lt in W. lra.
  - intros X HX i Hi. assert (X0 : 0 <= X) by (pose proof (HX i Hi); pose proof (Rabs_pos (cmpR x i)); lra). pose proof (kap_pos n u U0 NU) as KP.
    replace (kap n u / mu * X) with (kap n u * X / mu) by (field; lra).
    apply (dom_inverse mu n (mvalN e) (fun i => cmpR x i - z i) (kap n u * X) M0 ltac:(apply Rmult_le_pos; assumption) D); [|exact Hi]. intros r Hr.
    rewrite (rsum_ext n _ (fun c => mvalN e r c * cmpR x c - mvalN e r c * z c)) by (intros; apply Rmult_minus_distr_l). rewrite <- rsum_minus, Hz by exact Hr. eapply Rle_trans; [apply (B X HX r Hr)|]. right. ring.
Qed.
