(** FpFacts4.v - rounding errors along a run; the order of convergence in rounded arithmetic; binary64. *)
From Coq Require Import List Arith Lia Bool ZArith QArith Qcanon Reals Lra Psatz.
From Flocq Require Import Core Relative.
From Verif Require Import Base BaseFacts VecModel VOps NewtFacts NewtFacts4 RkModel RkSpec RkFacts RkFacts2 RkFacts3 StepModel StepSpec ConvSpec ConvFacts ConvFacts2 ConvFacts3 ConvFacts4 ConvFacts5 HighSpec HighFacts5 FpSpec FpFacts FpFacts2 FpFacts3.
Import ListNotations.
Local Open Scope R_scope.

Lemma pathN_inv {N : Num} (co : coeffs N) stages n ix F s l s' : pathN co stages n ix F s l s' ->
  match l with [] => s' = s | h :: r => exists s1, tstepN co stages n ix F h s s1 /\ pathN co stages n ix F s1 r s' end.
Proof. destruct 1; [reflexivity|]. eexists; split; eassumption. Qed.
Lemma exp_ge x : 1 + x <= exp x.
Proof. destruct (Req_dec x 0) as [->|NZ]; [rewrite exp_0; lra|]. left. apply exp_ineq1. assumption. Qed.
Lemma exp_nonneg_ge1 x : 0 <= x -> 1 <= exp x.
Proof. intros. pose proof (exp_ge x). lra. Qed.
Lemma pow_exp e m : 0 <= e -> (1 + e) ^ m <= exp (INR m * e).
Proof.
  intros E0. induction m as [|m I]; [simpl; rewrite Rmult_0_l, exp_0; lra|]. rewrite S_INR. replace ((INR m + 1) * e) with (e + INR m * e) by ring. rewrite exp_plus. simpl.
  apply mul_le; [lra|apply pow_le; lra|apply exp_ge|assumption].
Qed.

Section Run.
Context (co : coeffs RNum) (stages n ix : nat) (f : R -> list R -> list R) (L F0 A H K : R).
Hypothesis LL : 0 <= L.
Hypothesis HH : 0 <= H.
Hypothesis SZ : sized n f.
Hypothesis LIP : lipschitz n L f.
Hypothesis HK : 0 <= K.
Hypothesis STEP : forall rnd u eta V psi h g phi x t tf theta evals k evalsf kf x2 x2f,
  twin co stages n f H rnd u eta V psi h g phi x t tf theta evals k evalsf kf -> resultR co stages n ix x h k x2 -> resultN (N:=FNum rnd) (tabF rnd co) stages n ix x h kf x2f ->
  near n x2f x2 (K * (V * (u + eta) + h * psi)) /\ near n x2 x (h * (K * V)).
Notation F := (fun t x => Ret (f t x)).
Notation Lam := (growth co stages ix L H).
Context (rnd : R -> R) (u eta phi tau VM thM : R) (g : R -> list R -> list R).
Hypothesis RO : rounds rnd u eta.
Hypothesis U0 : 0 <= u.
Hypothesis ET0 : 0 <= eta.
Hypothesis E1' : u + eta <= 1.
Hypothesis PH : 0 <= phi <= 1.
Hypothesis AC : accurate n phi f g.
Hypothesis T1 : 1 <= tau.
Notation e := (u + eta).
Notation psiM := (VM * phi + thM).
Lemma run_err : forall l t x tf (xf : list R) s' (sf' : R * list R) V th err,
  path co stages n ix F (t, x) l s' -> pathN (N:=FNum rnd) (tabF rnd co) stages n ix (fun t x => Ret (g t x)) (tf, xf) l sf' -> Forall (fun h => 0 < h <= H) l ->
  length x = n -> length xf = n -> Rabs t + total l <= tau -> tau <= V -> thM <= V -> bound n xf V -> 0 <= th -> Rabs (tf - t) <= th -> 0 <= err -> near n xf x err ->
  V * exp (3 * K * total l + K * (INR (length l) * e)) <= VM -> (1 + e) ^ length l * (th + INR (length l) * (e * tau)) <= thM ->
  near n (snd sf') (snd s') (exp (Lam * total l) * (err + INR (length l) * (K * (VM * e)) + total l * (K * psiM))) /\ Rabs (fst sf' - fst s') <= thM.
Proof.
  induction l as [|h l I]; intros t x tf xf s' sf' V th err P Q FA Lx Lf TT TV MV BV TH0 TH ER0 ER VV TM.
  - apply path_inv in P. apply pathN_inv in Q. rewrite P, Q. cbn [fst snd length total INR]. split; [|simpl in TM; lra].
    rewrite Rmult_0_r, exp_0. eapply near_weaken; [exact ER|]. cbn [INR]. lra.
  - apply path_inv in P. destruct P as [[t1 x1] [P1 P2]]. apply pathN_inv in Q. destruct Q as [[tf1 xf1] [Q1 Q2]].
    pose proof (Forall_inv FA) as Hh. pose proof (Forall_inv_tail FA) as FA'. cbv beta in Hh. destruct P1 as [ET [evx [kx [SX RX]]]]. cbn [fst snd] in ET, SX, RX. subst t1.
    destruct Q1 as [EQ [evf [kf [SF RF]]]]. cbn [fst snd] in EQ, SF, RF. change (nadd (FNum rnd) tf h) with (rnd (tf + h)) in EQ.
    assert (TL0 : 0 <= total l). { clear -FA'. induction FA' as [|a r Ha _ J]; simpl; [lra|]. lra. }
    cbn [total] in TT, VV |- *. rewrite S_INR in VV, TM |- * || (change (length (h :: l)) with (S (length l)) in *; rewrite S_INR in VV, TM |- *).
    set (m := INR (length l)) in *. assert (M0 : 0 <= m) by apply pos_INR. assert (e0 : 0 <= e) by lra.
    assert (POW : 0 < (1 + e) ^ length l) by (apply pow_lt; lra). assert (POW1 : 1 <= (1 + e) ^ length l) by (apply pow_R1_Rle; lra).
    (* time *)
    assert (TE : Rabs (rnd (tf + h) - (t + h)) <= (1 + e) * th + e * tau).
    { destruct RO as [_ RR]. assert (AT : Rabs (t + h) <= tau). { eapply Rle_trans; [apply Rabs_triang|]. rewrite (Rabs_pos_eq h) by lra. lra. }
      assert (X1 : Rabs (tf + h - (t + h)) <= th) by (replace (tf + h - (t + h)) with (tf - t) by ring; assumption).
      pose proof (abs_from _ _ _ _ X1 AT) as X2. pose proof (tri3 _ _ _ _ _ (RR (tf + h)) X1) as X3. eapply Rle_trans; [exact X3|].
      assert (u * Rabs (tf + h) <= u * (th + tau)) by (apply Rmult_le_compat_l; lra). assert (0 <= eta * th) by (apply Rmult_le_pos; lra).
      assert (eta * 1 <= eta * tau) by (apply Rmult_le_compat_l; lra). lra. }
    assert (THM : th <= thM).
    { eapply Rle_trans; [|exact TM]. assert (0 <= (m + 1) * (e * tau)) by (apply Rmult_le_pos; [lra|apply Rmult_le_pos; lra]).
      assert (P1' : 1 <= (1 + e) ^ length (h :: l)) by (apply pow_R1_Rle; lra).
      apply Rle_trans with (1 * (th + (m + 1) * (e * tau))); [lra|]. apply Rmult_le_compat_r; [lra|exact P1']. }
    assert (VVM : V <= VM).
    { eapply Rle_trans; [|exact VV]. rewrite <- (Rmult_1_r V) at 1. apply Rmult_le_compat_l; [lra|]. apply exp_nonneg_ge1.
      assert (0 <= K * (h + total l)) by (apply Rmult_le_pos; lra). assert (0 <= K * ((m + 1) * e)) by (apply Rmult_le_pos; [lra|apply Rmult_le_pos; lra]). lra. }
    (* the exact step from the rounded state *)
    destruct (tstep_exists co stages n ix f SZ t xf h Lf) as [y [_ [evy [ky [SY RY]]]]]. cbn [fst snd] in SY, RY.
    set (psi := V * phi + thM). assert (PSI : 0 <= psi <= 2 * V).
    { unfold psi. assert (0 <= V * phi) by (apply Rmult_le_pos; lra). assert (V * phi <= V * 1) by (apply Rmult_le_compat_l; lra). lra. }
    assert (TW : twin co stages n f H rnd u eta V psi h g phi xf t tf thM evy ky evf kf).
    { split; [split; [exact RO|]; split; [exact U0|]; split; [exact ET0|]; split; [exact E1'|]; split; [lra|]; split; [exact PSI|]; split; lra|]. split; [exact AC|]. split; [lra|]. split; [lra|]. split; [unfold psi; lra|]. split; [exact Lf|].
      split; [exact BV|]. split; [lra|]. split; [lra|]. split; [exact SY|exact SF]. }
    destruct (STEP _ _ _ _ _ _ _ _ _ _ _ _ _ _ _ _ y xf1 TW RY RF) as [N1 N2].
    assert (VE : 0 <= V * e) by (apply Rmult_le_pos; lra).
    (* size of the new state *)
    assert (BV' : bound n xf1 (V * (1 + (3 * K * h + K * e)))).
    { intros j Hj. pose proof (tri3 _ _ _ _ _ (N1 j Hj) (N2 j Hj)) as X. pose proof (abs_from _ _ _ _ X (BV j Hj)) as Y. eapply Rle_trans; [exact Y|].
      assert (h * psi <= h * (2 * V)) by (apply Rmult_le_compat_l; lra). assert (K * (h * psi) <= K * (h * (2 * V))) by (apply Rmult_le_compat_l; lra).
      replace (V * (1 + (3 * K * h + K * e))) with (K * (V * e) + K * (h * (2 * V)) + h * (K * V) + V) by ring. lra. }
    assert (V1 : V <= V * (1 + (3 * K * h + K * e))).
    { assert (0 <= V * (3 * K * h + K * e)); [|lra]. apply Rmult_le_pos; [lra|]. assert (0 <= K * h) by (apply Rmult_le_pos; lra). assert (0 <= K * e) by (apply Rmult_le_pos; lra). lra. }
    (* distance to the exact run *)
    assert (SP : near n y x1 ((1 + h * Lam) * err)).
    { eapply near_weaken; [apply (step_spread co stages n ix f L (lip_x n L f LIP) xf x t h y x1 err); [lra|assumption|exact ER| |]|].
      - split; [reflexivity|]. exists evy, ky. split; assumption.
      - split; [reflexivity|]. exists evx, kx. split; assumption.
      - apply Rmult_le_compat_r; [assumption|]. apply Rplus_le_compat_l. apply Rmult_le_compat_l; [lra|]. apply growth_mono; lra. }
    assert (PM : psi <= psiM). { unfold psi. assert (V * phi <= VM * phi) by (apply Rmult_le_compat_r; lra). lra. }
    assert (N3 : near n xf1 x1 (K * (VM * e) + h * (K * psiM) + (1 + h * Lam) * err)).
    { eapply near_weaken; [eapply near_trans; [exact N1|exact SP]|]. apply Rplus_le_compat_r.
      assert (K * (V * e) <= K * (VM * e)) by (apply Rmult_le_compat_l; [assumption|]; apply Rmult_le_compat_r; lra).
      assert (K * (h * psi) <= K * (h * psiM)) by (apply Rmult_le_compat_l; [assumption|]; apply Rmult_le_compat_l; lra). lra. }
    assert (G0 : 0 <= Lam) by (apply growth_nonneg; lra). assert (psi0 : 0 <= psiM) by lra.
    assert (K1 : 0 <= K * (VM * e)) by (apply Rmult_le_pos; [assumption|]; apply Rmult_le_pos; lra).
    assert (K2 : 0 <= K * psiM) by (apply Rmult_le_pos; assumption). assert (K3 : 0 <= h * (K * psiM)) by (apply Rmult_le_pos; lra).
    assert (HG : 0 <= h * Lam) by (apply Rmult_le_pos; lra).
    assert (ER' : 0 <= (1 + h * Lam) * err) by (apply Rmult_le_pos; lra).
    destruct (I (t + h) x1 (rnd (tf + h)) xf1 s' sf' (V * (1 + (3 * K * h + K * e))) ((1 + e) * th + e * tau) (K * (VM * e) + h * (K * psiM) + (1 + h * Lam) * err)) as [J1 J2].
    + exact P2.
    + rewrite <- EQ. exact Q2.
    + exact FA'.
    + exact (proj1 RX).
    + exact (proj1 RF).
    + assert (Rabs (t + h) <= Rabs t + h). { eapply Rle_trans; [apply Rabs_triang|]. rewrite (Rabs_pos_eq h) by lra. lra. } lra.
    + lra.
    + lra.
    + exact BV'.
    + assert (0 <= (1 + e) * th) by (apply Rmult_le_pos; lra). assert (0 <= e * tau) by (apply Rmult_le_pos; lra). lra.
    + exact TE.
    + lra.
    + exact N3.
    + eapply Rle_trans; [|exact VV]. rewrite Rmult_assoc. apply Rmult_le_compat_l; [lra|].
      replace (3 * K * (h + total l) + K * ((m + 1) * e)) with ((3 * K * h + K * e) + (3 * K * total l + K * (m * e))) by ring. rewrite (exp_plus (3 * K * h + K * e)).
      apply Rmult_le_compat_r; [left; apply exp_pos|]. apply exp_ge.
    + eapply Rle_trans; [|exact TM]. simpl pow. replace ((1 + e) * (1 + e) ^ length l * (th + (m + 1) * (e * tau))) with ((1 + e) ^ length l * ((1 + e) * (th + (m + 1) * (e * tau)))) by ring.
      apply Rmult_le_compat_l; [lra|]. assert (0 <= e * ((m + 1) * (e * tau))) by (apply Rmult_le_pos; [lra|]; apply Rmult_le_pos; [lra|]; apply Rmult_le_pos; lra). fold m. lra.
    + split; [|exact J2]. eapply near_weaken; [exact J1|].
      replace (Lam * (h + total l)) with (h * Lam + Lam * total l) by ring. rewrite (exp_plus (h * Lam)).
      assert (EX : 1 + h * Lam <= exp (h * Lam)) by apply exp_ge. assert (EP : 0 < exp (Lam * total l)) by apply exp_pos.
      fold m. rewrite (Rmult_comm (exp (h * Lam))), Rmult_assoc. apply Rmult_le_compat_l; [lra|].
      set (a := m * (K * (VM * e))). set (b := total l * (K * psiM)). assert (a0 : 0 <= a) by (apply Rmult_le_pos; assumption). assert (b0 : 0 <= b) by (apply Rmult_le_pos; assumption).
      set (k1 := K * (VM * e)) in *. set (k2 := h * (K * psiM)) in *.
      replace (exp (h * Lam) * (err + (m + 1) * k1 + (h + total l) * (K * psiM))) with (exp (h * Lam) * err + exp (h * Lam) * (a + k1 + k2 + b)) by (unfold a, b, k2, k1; ring).
      assert (S1 : (1 + h * Lam) * err <= exp (h * Lam) * err) by (apply Rmult_le_compat_r; assumption).
      assert (S2 : 1 * (a + k1 + k2 + b) <= exp (h * Lam) * (a + k1 + k2 + b)) by (apply Rmult_le_compat_r; lra). lra.
Qed.
End Run.

Lemma slope_linear n L f : lipschitz n L f -> exists F0, 0 <= F0 /\ forall t x b, length x = n -> bound n x b -> bound n (f t x) (F0 + L * (Rabs t + b)).
Proof.
  intros LIP. destruct (vector_bounded (f 0 (repeat 0 n)) n) as [F0 [F00 HF]]. exists F0. split; [assumption|].
  intros t x b Lx BX j Hj. assert (N : near n x (repeat 0 n) b).
  { intros q Hq. unfold cmpR at 2. rewrite nth_repeat. rewrite Rminus_0_r. apply BX. assumption. }
  pose proof (LIP t 0 x (repeat 0 n) b Lx (repeat_length 0 n) N j Hj) as X. rewrite Rminus_0_r in X. rewrite Rplus_comm. eapply abs_from; [exact X|apply HF; assumption].
Qed.
Lemma list_bounded (v : list R) : exists B, 0 <= B /\ forall i, Rabs (nth i v 0) <= B.
Proof.
  destruct (vector_bounded v (length v)) as [B [B0 HB]]. exists B. split; [assumption|]. intros i. destruct (Nat.lt_ge_cases i (length v)) as [LT|GE]; [apply HB; assumption|].
  rewrite nth_overflow by assumption. rewrite Rabs_R0. assumption.
Qed.
Lemma path_exists co stages n ix f : sized n f -> forall l s, length (snd s) = n -> exists s', path co stages n ix (fun t x => Ret (f t x)) s l s'.
Proof.
  intros SZ. induction l as [|h l I]; intros [t x] Lx; [eexists; constructor|].
  destruct (tstep_exists co stages n ix f SZ t x h Lx) as [y TY]. destruct (I (t + h, y)) as [s' P].
  - destruct TY as [_ [ev [k [_ [LY _]]]]]. exact LY.
  - exists s'. econstructor; eassumption.
Qed.
(** rounding errors along a run, compared with the exact run over the same steps *)
Lemma roundoff co stages n ix f L t0 T b0 : sized n f -> 0 <= L -> lipschitz n L f -> 0 <= T -> 0 <= b0 ->
  exists C, 0 <= C /\ forall rnd u eta phi g l x0 s' sf', rounds rnd u eta -> 0 <= u -> 0 <= eta -> 0 <= phi <= 1 -> accurate n phi f g -> INR (length l) * (u + eta) <= 1 ->
  Forall (fun h => 0 < h) l -> total l <= T -> length x0 = n -> bound n x0 b0 ->
  path co stages n ix (fun t x => Ret (f t x)) (t0, x0) l s' -> pathN (N:=FNum rnd) (tabF rnd co) stages n ix (fun t x => Ret (g t x)) (t0, x0) l sf' ->
  near n (snd sf') (snd s') (C * (phi + INR (length l) * (u + eta))) /\ Rabs (fst sf' - fst s') <= C * (INR (length l) * (u + eta)).
Proof.
  intros SZ HL LIP HT HB0. destruct (slope_linear n L f LIP) as [F0 [F00 SLOPE]].
  destruct (list_bounded (co_a co)) as [A1 [A10 EA]]. destruct (list_bounded (co_b co)) as [A2 [A20 EB]]. destruct (list_bounded (co_c co)) as [A3 [A30 EC]].
  destruct (twin_step co stages n ix f L F0 (A1 + A2 + A3) T) as [K [K0 STEP]]; try assumption; try lra; try (intros i; change (nT RNum) with R in *; pose proof (EA i); pose proof (EB i); pose proof (EC i); lra).
  set (tau := 1 + Rabs t0 + T). assert (TAU : 1 <= tau) by (unfold tau; pose proof (Rabs_pos t0); lra).
  set (V0 := 3 * tau + b0). set (VM := V0 * exp (3 * K * T + K)). assert (VM0 : 0 <= VM) by (unfold VM; apply Rmult_le_pos; [unfold V0; lra|left; apply exp_pos]).
  set (EL := exp (growth co stages ix L T * T)). assert (EL0 : 0 < EL) by apply exp_pos.
  set (C1 := EL * (K * VM + T * K * (VM + 3 * tau))). assert (C10 : 0 <= C1).
  { apply Rmult_le_pos; [lra|]. assert (0 <= K * VM) by (apply Rmult_le_pos; assumption). assert (0 <= T * K * (VM + 3 * tau)) by (apply Rmult_le_pos; [apply Rmult_le_pos; assumption|lra]). lra. }
  exists (C1 + 3 * tau). split; [lra|].
  intros rnd u eta phi g l x0 s' sf' RO U0 ET0 PH AC NE FA TL Lx BX P Q.
  destruct l as [|h0 l0].
  { apply path_inv in P. apply pathN_inv in Q. rewrite P, Q. cbn [fst snd length INR]. rewrite Rmult_0_l, Rmult_0_r, Rplus_0_r. split.
    - intros j Hj. rewrite Rminus_diag_eq by reflexivity. rewrite Rabs_R0. apply Rmult_le_pos; lra.
    - rewrite Rminus_diag_eq by reflexivity. rewrite Rabs_R0. lra. }
  set (l := h0 :: l0) in *. set (Ne := INR (length l) * (u + eta)) in *. assert (e0 : 0 <= u + eta) by lra.
  assert (N1 : 1 <= INR (length l)) by (unfold l; cbn [length]; rewrite S_INR; pose proof (pos_INR (length l0)); lra).
  assert (NE0 : 0 <= Ne) by (apply Rmult_le_pos; lra).
  assert (e1 : u + eta <= 1). { eapply Rle_trans; [|exact NE]. unfold Ne. rewrite <- (Rmult_1_l (u + eta)) at 1. apply Rmult_le_compat_r; lra. }
  assert (TL0 : 0 <= total l). { clear -FA. induction FA as [|a r Ha _ J]; simpl; [lra|]. lra. }
  assert (FA' : Forall (fun h => 0 < h <= T) l).
  { apply Forall_forall. intros a Ia. split; [exact (proj1 (Forall_forall _ _) FA a Ia)|]. eapply Rle_trans; [apply (total_le l a FA Ia)|assumption]. }
  destruct (run_err co stages n ix f L T K HL HT SZ LIP K0 STEP rnd u eta phi tau VM (3 * tau * Ne) g RO U0 ET0 e1 PH AC TAU l t0 x0 t0 x0 s' sf' V0 0 0) as [R1 R2]; try assumption.
  - unfold tau. lra.
  - unfold V0. lra.
  - unfold V0. assert (3 * tau * Ne <= 3 * tau * 1) by (apply Rmult_le_compat_l; lra). lra.
  - intros j Hj. eapply Rle_trans; [apply BX; assumption|]. unfold V0. lra.
  - lra.
  - rewrite Rminus_diag_eq by reflexivity. rewrite Rabs_R0. lra.
  - lra.
  - intros j Hj. rewrite Rminus_diag_eq by reflexivity. rewrite Rabs_R0. lra.
  - unfold VM. apply Rmult_le_compat_l; [unfold V0; lra|]. fold Ne.
    assert (X : 3 * K * total l + K * Ne <= 3 * K * T + K).
    { assert (K * total l <= K * T) by (apply Rmult_le_compat_l; assumption). assert (K * Ne <= K * 1) by (apply Rmult_le_compat_l; assumption). lra. }
    destruct X as [X|X]; [left; apply exp_increasing; exact X|right; rewrite X; reflexivity].
  - rewrite Rplus_0_l. assert (PE : (1 + (u + eta)) ^ length l <= 3).
    { eapply Rle_trans; [apply pow_exp; assumption|]. fold Ne. apply Rle_trans with (exp 1); [|apply exp_le_3].
      destruct NE as [X|X]; [left; apply exp_increasing; exact X|right; rewrite X; reflexivity]. }
    replace (INR (length l) * ((u + eta) * tau)) with (tau * Ne) by (unfold Ne; ring). rewrite Rmult_assoc. apply Rmult_le_compat_r; [apply Rmult_le_pos; lra|assumption].
  - split; [|eapply Rle_trans; [exact R2|]; apply Rmult_le_compat_r; [assumption|lra]].
    eapply near_weaken; [exact R1|]. rewrite Rplus_0_l. fold Ne.
    assert (G0 : 0 <= growth co stages ix L T) by (apply growth_nonneg; assumption).
    assert (X : growth co stages ix L T * total l <= growth co stages ix L T * T) by (apply Rmult_le_compat_l; assumption).
    assert (XE : exp (growth co stages ix L T * total l) <= EL) by (destruct X as [X|X]; [left; apply exp_increasing; exact X|right; unfold EL; rewrite X; reflexivity]).
    assert (Y0 : 0 <= K * (VM * phi + 3 * tau * Ne)). { apply Rmult_le_pos; [assumption|]. assert (0 <= VM * phi) by (apply Rmult_le_pos; lra). assert (0 <= 3 * tau * Ne) by (apply Rmult_le_pos; lra). lra. }
    assert (Y1 : INR (length l) * (K * (VM * (u + eta))) = K * VM * Ne) by (unfold Ne; ring). rewrite Y1.
    assert (Y2 : 0 <= K * VM * Ne) by (apply Rmult_le_pos; [apply Rmult_le_pos; assumption|assumption]).
    assert (Y3 : 0 <= total l * (K * (VM * phi + 3 * tau * Ne))) by (apply Rmult_le_pos; assumption).
    apply Rle_trans with (EL * (K * VM * Ne + T * (K * (VM * phi + 3 * tau * Ne)))).
    + apply mul_le; [left; apply exp_pos|lra|assumption|]. apply Rplus_le_compat_l. apply Rmult_le_compat_r; assumption.
    + assert (TK : 0 <= T * K) by (apply Rmult_le_pos; assumption).
      assert (Z1 : EL * (K * VM * Ne + T * (K * (VM * phi + 3 * tau * Ne))) <= C1 * (phi + Ne)).
      { unfold C1. replace (EL * (K * VM + T * K * (VM + 3 * tau)) * (phi + Ne)) with (EL * ((K * VM + T * K * (VM + 3 * tau)) * (phi + Ne))) by ring. apply Rmult_le_compat_l; [lra|].
        assert (0 <= K * VM * phi) by (apply Rmult_le_pos; [apply Rmult_le_pos; assumption|lra]). assert (0 <= T * K * (3 * tau * phi)) by (apply Rmult_le_pos; [assumption|]; apply Rmult_le_pos; lra).
        assert (0 <= T * K * (VM * Ne)) by (apply Rmult_le_pos; [assumption|]; apply Rmult_le_pos; lra). lra. }
      assert (0 <= 3 * tau * (phi + Ne)) by (apply Rmult_le_pos; lra). lra.
Qed.

Lemma binary64_rounds : rounds binary64 (/ 2 ^ 53) (/ 2 ^ 1075).
Proof.
  split; [apply round_0; auto with typeclass_instances|]. intros z. unfold binary64.
  destruct (error_N_FLT radix2 (-1074) 53 (eq_refl : (0 < 53)%Z) (fun x => negb (Z.even x)) z) as [eps [et [H1 [H2 [_ H3]]]]]. rewrite H3.
  replace (z * (1 + eps) + et - z) with (eps * z + et) by ring. eapply Rle_trans; [apply Rabs_triang|]. rewrite Rabs_mult.
  assert (B1 : / 2 * bpow radix2 (-53 + 1) = / 2 ^ 53).
  { change (-53 + 1)%Z with (Z.opp 52). rewrite bpow_opp. rewrite <- IZR_Zpower by discriminate. rewrite (pow_IZR 2 53). rewrite <- Rinv_mult. rewrite <- mult_IZR. reflexivity. }
  assert (B2 : / 2 * bpow radix2 (-1074) = / 2 ^ 1075).
  { change (-1074)%Z with (Z.opp 1074). rewrite bpow_opp. rewrite <- IZR_Zpower by discriminate. rewrite <- Rinv_mult.
    rewrite <- mult_IZR. rewrite (pow_IZR 2 1075). reflexivity. }
  apply Rplus_le_compat; [|exact (eq_ind _ (fun v => Rabs et <= v) H2 _ B2)]. apply Rmult_le_compat_r; [apply Rabs_pos|exact (eq_ind _ (fun v => Rabs eps <= v) H1 _ B1)].
Qed.
