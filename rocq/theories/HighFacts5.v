(** HighFacts5.v - the global error of order p. *)
From Coq Require Import List Arith Lia Bool ZArith QArith Qcanon Reals Lra Qreals.
From Verif Require Import Base BaseFacts VecModel VOps RkModel RkSpec RkFacts4 StepModel StepSpec ConvSpec ConvFacts ConvFacts2 ConvFacts3 ConvFacts4 ConvFacts5 HighSpec HighFacts HighFacts2 HighFacts3 HighFacts4.
Import ListNotations.
Local Open Scope R_scope.

Section Global.
Context (n p stages ix : nat) (f : R -> list R -> list R) (X : R -> list R) (t0 T L A : R).
Hypothesis Hp : (0 < p)%nat.
Hypothesis SZ : sized n f.
Hypothesis HT0 : 0 <= T.
Hypothesis SO : solves n f X t0 (t0 + T).
Hypothesis HL : 0 <= L.
Hypothesis LIP : lipschitz n L f.
Hypothesis HA : 0 <= A.
Hypothesis SM : smooth_along n p f X t0 (t0 + T).
Notation F := (fun t x => Ret (f t x)).

Lemma uniform_j (P : nat -> R -> Prop) : (forall j C C', C <= C' -> P j C -> P j C') -> (forall j, (j < n)%nat -> exists C, 0 <= C /\ P j C) ->
  exists C, 0 <= C /\ forall j, (j < n)%nat -> P j C.
Proof.
  intros MO EX. assert (G : forall m, (m <= n)%nat -> exists C, 0 <= C /\ forall j, (j < m)%nat -> P j C); [|exact (G n (le_n _))].
  induction m as [|m I]; intros Hm; [exists 0; split; [lra|intros; lia]|]. destruct I as [C [C0 HC]]; [lia|]. destruct (EX m ltac:(lia)) as [C' [C0' HC']].
  exists (Rmax C C'). split; [eapply Rle_trans; [exact C0|apply Rmax_l]|]. intros j Hj. destruct (Nat.eq_dec j m) as [->|NE].
  - apply (MO m C'); [apply Rmax_r|assumption].
  - apply (MO j C); [apply Rmax_l|apply HC; lia].
Qed.
(** the local error, for every step size within the interval *)
Lemma local_all : exists Q, 0 <= Q /\ forall co delta t h x', table_ok p stages ix A co delta -> t0 <= t -> 0 < h -> t + h <= t0 + T ->
  tstep co stages n ix F h (t, X t) (t + h, x') -> near n x' (X (t + h)) (h * (Q * (h ^ p + delta))).
Proof.
  destruct SM as [D [rho [B [R0 [B0 HT]]]]]. assert (H01 : t0 <= t0 + T) by lra.
  destruct (slope_bounded n f L X t0 (t0 + T) H01 HL LIP SO) as [M [HM HB]].
  destruct (all_slopes_bounded n p stages ix f X t0 T M L A Hp SO HL LIP HM HA HB T HT0) as [C [C0 HC]].
  set (K := rsum stages (fun _ => A * C) + 1).
  assert (K1 : 0 <= rsum stages (fun _ => A * C)) by (apply rsum_nonneg; intros; apply Rmult_le_pos; assumption).
  set (H1 := rho / (K + (1 + M))). assert (KM : 0 < K + (1 + M)) by (unfold K; lra). assert (H1P : 0 < H1) by (apply Rdiv_lt_0_compat; assumption).
  set (H := Rmin T H1). assert (HT' : H <= T) by apply Rmin_l. assert (HH1 : H <= H1) by apply Rmin_r.
  assert (KH1 : (K + (1 + M)) * H1 = rho) by (unfold H1; field; lra).
  assert (H0 : 0 <= H) by (unfold H; apply Rmin_glb; lra).
  assert (R1 : K * H <= rho). { rewrite <- KH1. apply Rmult_le_compat; unfold K in *; lra. }
  assert (R2 : (1 + M) * H <= rho). { rewrite <- KH1. apply Rmult_le_compat; unfold K in *; lra. }
  assert (HC' : forall s i j, (s < stages)%nat -> validN n p stages ix f X t0 T A H i -> (j < S n)%nat -> Rabs (kN s i j) <= C).
  { intros s i j Hs V Hj. apply HC; [assumption|apply (validN_mono n p stages ix f X t0 T A H T); assumption|assumption]. }
  destruct (uniform_j (fun j Q => forall i, validN n p stages ix f X t0 T A H i ->
     Rabs (nextN stages ix X i j - cmpR (X (nc_t i + nc_h i)) j) <= nc_h i * (Q * (nc_h i ^ p + nc_d i)))) as [Q [Q0 HQ]].
  { intros j Q Q' LE HQ i V. eapply Rle_trans; [apply HQ; assumption|]. assert (V1 : 0 < nc_h i) by apply V. assert (V2 : 0 <= nc_d i) by apply V. apply Rmult_le_compat_l; [lra|].
    apply Rmult_le_compat_r; [|assumption]. assert (0 < nc_h i ^ p) by (apply pow_lt; assumption). lra. }
  { intros j Hj. exact (local_order n p stages ix f X t0 T D rho B M A Hp SO HM HA B0 HB HT H C K C0 HC' eq_refl R1 R2 j Hj). }
  set (Q2 := (rsum stages (fun _ => A * C) + M) / H1 ^ p). assert (HP : 0 < H1 ^ p) by (apply pow_lt; assumption).
  assert (Q20 : 0 <= Q2) by (unfold Q2; apply Rmult_le_pos; [lra|left; apply Rinv_0_lt_compat; assumption]).
  exists (Q + Q2). split; [lra|]. intros co delta t h x' TO Ht Hh HE [_ [ev [k [ST [_ RE]]]]] j Hj. cbn [fst snd] in ST, RE.
  set (i := mkCase co delta t h ev k).
  assert (VT : validN n p stages ix f X t0 T A T i). { split; [exact TO|]. split; [exact Ht|]. split; [simpl; lra|]. split; [simpl; lra|exact ST]. }
  assert (DP : 0 <= delta) by apply TO. assert (HPP : 0 < h ^ p) by (apply pow_lt; assumption).
  rewrite RE by assumption. change (cmpR (X t) j + h * rsum stages (fun s => BR_ co stages ix s * cmpR (nth s k []) j)) with (nextN stages ix X i j).
  destruct (Rle_lt_dec h H) as [LE|GT].
  - assert (V : validN n p stages ix f X t0 T A H i). { split; [exact TO|]. split; [exact Ht|]. split; [simpl; lra|]. split; [simpl; lra|exact ST]. }
    eapply Rle_trans; [exact (HQ j Hj i V)|]. simpl. apply Rmult_le_compat_l; [lra|]. apply Rmult_le_compat_r; lra.
  - assert (GT1 : H1 < h) by (unfold H, Rmin in GT; destruct (Rle_dec T H1); lra).
    unfold nextN. simpl nc_t. simpl nc_h. simpl nc_co. simpl nc_k.
    assert (M1 : near n (X (t + h)) (X t) (M * (t + h - t))).
    { apply (moves n f M X t (t + h)); [lra|intros u Hu; apply SO; lra|intros u q Hu Hq; apply HB; [lra|assumption]]. }
    specialize (M1 j Hj). set (SS := rsum stages (fun s => BR_ co stages ix s * cmpR (nth s k []) j)).
    assert (SB : Rabs SS <= rsum stages (fun _ => A * C)).
    { eapply Rle_trans; [apply rsum_abs|]. apply rsum_le. intros s Hs. rewrite Rabs_mult. apply Rmult_le_compat; [apply Rabs_pos|apply Rabs_pos|apply TO; assumption|].
      exact (HC s i (S j) Hs VT ltac:(lia)). }
    replace (cmpR (X t) j + h * SS - cmpR (X (t + h)) j) with (h * SS - (cmpR (X (t + h)) j - cmpR (X t) j)) by ring.
    eapply Rle_trans; [apply Rabs_triang|]. rewrite Rabs_Ropp, Rabs_mult, (Rabs_right h) by lra.
    assert (SB2 : h * Rabs SS <= h * rsum stages (fun _ => A * C)) by (apply Rmult_le_compat_l; lra).
    apply Rle_trans with (h * (rsum stages (fun _ => A * C) + M)); [lra|]. apply Rmult_le_compat_l; [lra|].
    assert (PW : H1 ^ p <= h ^ p) by (apply pow_incr; lra).
    apply Rle_trans with (Q2 * h ^ p).
    + apply Rle_trans with (Q2 * H1 ^ p); [unfold Q2; right; field; lra|]. apply Rmult_le_compat_l; assumption.
    + assert (0 <= Q2 * delta) by (apply Rmult_le_pos; assumption). assert (0 <= Q * (h ^ p + delta)) by (apply Rmult_le_pos; lra). lra.
Qed.
(** the growth factor, for all tables with bounded entries *)
Lemma gains_bounded s : (s < stages)%nat -> exists G, 0 <= G /\ forall co delta, table_ok p stages ix A co delta -> nth s (gains co L T stages) 0 <= G.
Proof.
  induction s as [s I] using lt_wf_ind. intros Hs.
  assert (UN : forall m, (m <= s)%nat -> exists C, 0 <= C /\ forall q co delta, (q < m)%nat -> table_ok p stages ix A co delta -> nth q (gains co L T stages) 0 <= C).
  { induction m as [|m J]; intros Hm; [exists 0; split; [lra|intros; lia]|]. destruct J as [C [C0 HC]]; [lia|]. destruct (I m ltac:(lia) ltac:(lia)) as [C' [C0' HC']].
    exists (Rmax C C'). split; [eapply Rle_trans; [exact C0|apply Rmax_l]|]. intros q co delta Hq TO. destruct (Nat.eq_dec q m) as [->|NE].
    - eapply Rle_trans; [exact (HC' co delta TO)|apply Rmax_r].
    - eapply Rle_trans; [apply (HC q co delta); [lia|assumption]|apply Rmax_l]. }
  destruct (UN s (le_n _)) as [C [C0 HC]].
  assert (S0 : 0 <= rsum s (fun _ => A * C)) by (apply rsum_nonneg; intros; apply Rmult_le_pos; assumption).
  exists (L * (1 + T * rsum s (fun _ => A * C))). split; [apply Rmult_le_pos; [assumption|]; assert (0 <= T * rsum s (fun _ => A * C)) by (apply Rmult_le_pos; assumption); lra|].
  intros co delta TO. rewrite gains_at by assumption. apply Rmult_le_compat_l; [assumption|]. apply Rplus_le_compat_l, Rmult_le_compat_l; [assumption|].
  apply rsum_le. intros q Hq. apply Rmult_le_compat; [apply Rabs_pos|apply gains_nonneg; assumption|apply TO; assumption|exact (HC q co delta Hq TO)].
Qed.
Lemma growth_bounded : exists G, 0 <= G /\ forall co delta, table_ok p stages ix A co delta -> growth co stages ix L T <= G.
Proof.
  assert (UN : forall m, (m <= stages)%nat -> exists G, 0 <= G /\ forall co delta, table_ok p stages ix A co delta ->
    rsum m (fun s => Rabs (BR_ co stages ix s) * nth s (gains co L T stages) 0) <= G).
  { induction m as [|m J]; intros Hm; [exists 0; split; [lra|intros; simpl; lra]|]. destruct J as [C [C0 HC]]; [lia|]. destruct (gains_bounded m ltac:(lia)) as [C' [C0' HC']].
    exists (C + A * C'). split; [assert (0 <= A * C') by (apply Rmult_le_pos; assumption); lra|]. intros co delta TO. simpl. apply Rplus_le_compat; [exact (HC co delta TO)|].
    apply Rmult_le_compat; [apply Rabs_pos|apply gains_nonneg; assumption|apply TO; lia|exact (HC' co delta TO)]. }
  exact (UN stages (le_n _)).
Qed.
(** accumulation along a path *)
Lemma path_order : exists C, 0 <= C /\ forall co delta l x0 s' d Hm, table_ok p stages ix A co delta -> path co stages n ix F (t0, x0) l s' -> Forall (fun h => 0 < h <= Hm) l ->
  total l <= T -> length x0 = n -> 0 <= d -> near n x0 (X t0) d -> 0 <= Hm ->
  fst s' = t0 + total l /\ near n (snd s') (X (fst s')) (C * (d + Hm ^ p + delta)).
Proof.
  destruct local_all as [Q [Q0 HQ]]. destruct growth_bounded as [G [G0 HG]].
  assert (MAIN : forall l co delta s s' e Hm, table_ok p stages ix A co delta -> path co stages n ix F s l s' -> Forall (fun h => 0 < h <= Hm) l ->
     t0 <= fst s -> fst s + total l <= t0 + T -> length (snd s) = n -> 0 <= e -> near n (snd s) (X (fst s)) e -> 0 <= Hm ->
     fst s' = fst s + total l /\ near n (snd s') (X (fst s')) (exp (G * total l) * (e + total l * (Q * (Hm ^ p + delta))))).
  { induction l as [|h l I]; intros co delta s s' e Hm TO P FA Hs HE Ls He NR HM0.
    - apply path_inv in P. subst s'. simpl. rewrite Rplus_0_r. split; [reflexivity|]. rewrite Rmult_0_r, exp_0, Rmult_0_l, Rplus_0_r, Rmult_1_l. exact NR.
    - apply path_inv in P. destruct P as [s1 [TS P1]]. pose proof (Forall_inv FA) as Hh. pose proof (Forall_inv_tail FA) as FA'. cbv beta in Hh. simpl total in *.
      assert (TL : 0 <= total l). { clear - FA'. induction FA' as [|a l [A _] _ I]; simpl; lra. }
      destruct s as [t x], s1 as [t1 x1]. pose proof (proj1 TS) as TT. pose proof TS as TS0. destruct TS0 as [_ [_ [k0 [_ [Lx1 _]]]]]. simpl in TT, NR, Ls, Hs, HE, Lx1. subst t1.
      assert (LT : length (X t) = n) by (apply SO; lra). destruct (tstep_exists co stages n ix f SZ t (X t) h LT) as [y TY].
      assert (DP : 0 <= delta) by apply TO. assert (HPP : 0 < h ^ p) by (apply pow_lt; lra). assert (HPM : h ^ p <= Hm ^ p) by (apply pow_incr; lra).
      assert (N1 : near n x1 y ((1 + h * G) * e)).
      { eapply near_weaken; [exact (step_spread co stages n ix f L (lip_x n L f LIP) x (X t) t h x1 y e ltac:(lra) He NR TS TY)|].
        apply Rmult_le_compat_r; [assumption|]. apply Rplus_le_compat_l, Rmult_le_compat_l; [lra|]. eapply Rle_trans; [|exact (HG co delta TO)]. apply growth_mono; lra. }
      assert (N2 : near n y (X (t + h)) (h * (Q * (h ^ p + delta)))) by (apply (HQ co delta t h y TO); [lra|lra|lra|exact TY]).
      set (c := Q * (Hm ^ p + delta)).
      assert (C1 : Q * (h ^ p + delta) <= c) by (apply Rmult_le_compat_l; lra). assert (C0 : 0 <= Q * (h ^ p + delta)) by (apply Rmult_le_pos; lra).
      pose proof (near_trans _ _ _ _ _ _ N1 N2) as N3.
      assert (HG0 : 0 <= h * G) by (apply Rmult_le_pos; lra).
      assert (E1 : 0 <= (1 + h * G) * e + h * (Q * (h ^ p + delta))).
      { assert (0 <= (1 + h * G) * e) by (apply Rmult_le_pos; lra). assert (0 <= h * (Q * (h ^ p + delta))) by (apply Rmult_le_pos; lra). lra. }
      destruct (I co delta (t + h, x1) s' ((1 + h * G) * e + h * (Q * (h ^ p + delta))) Hm TO P1 FA') as [T2 N4]; [simpl; lra|simpl; lra|exact Lx1|exact E1|exact N3|assumption|].
      split; [rewrite T2; cbn [fst]; ring|]. eapply near_weaken; [exact N4|]. fold c.
      assert (EH : 1 + h * G <= exp (G * h)) by (rewrite (Rmult_comm h G); pose proof (exp_ineq1_le (G * h)); lra).
      replace (G * (h + total l)) with (G * h + G * total l) by ring. rewrite exp_plus.
      replace (exp (G * h) * exp (G * total l) * (e + (h + total l) * c)) with (exp (G * total l) * (exp (G * h) * (e + (h + total l) * c))) by ring.
      apply Rmult_le_compat_l; [left; apply exp_pos|].
      assert (A1 : h * (Q * (h ^ p + delta)) <= h * c) by (apply Rmult_le_compat_l; lra).
      assert (A2 : 0 <= (h + total l) * c) by (apply Rmult_le_pos; lra).
      assert (A3 : (1 + h * G) * (e + (h + total l) * c) <= exp (G * h) * (e + (h + total l) * c)) by (apply Rmult_le_compat_r; lra).
      assert (A4 : 0 <= h * G * ((h + total l) * c)) by (apply Rmult_le_pos; assumption). lra. }
  assert (TQ : 0 <= T * Q) by (apply Rmult_le_pos; assumption).
  exists (exp (G * T) * (1 + T * Q)). split; [apply Rmult_le_pos; [left; apply exp_pos|lra]|].
  intros co delta l x0 s' d Hm TO P FA TL Lx Hd NR HM0.
  destruct (MAIN l co delta (t0, x0) s' d Hm TO P FA) as [E N]; [simpl; lra|simpl; lra|exact Lx|exact Hd|exact NR|exact HM0|]. cbn [fst] in E. split; [exact E|].
  eapply near_weaken; [exact N|]. assert (DP : 0 <= delta) by apply TO. assert (PP : 0 <= Hm ^ p) by (apply pow_le; assumption).
  assert (TN : 0 <= total l). { clear - FA. induction FA as [|a l [A _] _ I]; simpl; lra. }
  assert (QP : 0 <= Q * (Hm ^ p + delta)) by (apply Rmult_le_pos; lra). rewrite Rmult_assoc. apply Rmult_le_compat; [left; apply exp_pos| | |].
  - assert (0 <= total l * (Q * (Hm ^ p + delta))) by (apply Rmult_le_pos; assumption). lra.
  - assert (LE : G * total l <= G * T) by (apply Rmult_le_compat_l; assumption). destruct (Rle_lt_or_eq_dec _ _ LE) as [Z|Z]; [left; apply exp_increasing; assumption|rewrite Z; lra].
  - assert (total l * (Q * (Hm ^ p + delta)) <= T * (Q * (Hm ^ p + delta))) by (apply Rmult_le_compat_r; assumption).
    assert (0 <= T * Q * d) by (apply Rmult_le_pos; assumption). lra.
Qed.
End Global.

(** * Rational tables *)
Lemma q2r_1 : q2r 1%Qc = 1. Proof. unfold q2r. simpl. apply RMicromega.Q2R_1. Qed.
Lemma q2r_mult a b : q2r (a * b)%Qc = q2r a * q2r b.
Proof. unfold q2r. rewrite <- Q2R_mult. apply Qeq_eqR. apply (Qred_correct (this a * this b)). Qed.
Lemma q2r_opp a : q2r (- a)%Qc = - q2r a.
Proof. replace (- a)%Qc with (0 - a)%Qc by ring. rewrite q2r_minus, q2r_0. ring. Qed.
Lemma q2r_abs a b : (Qcabs a <= b)%Qc -> Rabs (q2r a) <= q2r b.
Proof.
  intros W. unfold Qcabs in W. destruct (Qcltb a 0)%Qc eqn:LT.
  - apply q2r_le in W. rewrite q2r_opp in W. apply Qcltb_lt in LT. apply Qclt_le_weak in LT. apply q2r_le in LT. rewrite q2r_0 in LT. rewrite Rabs_left1 by assumption. exact W.
  - apply q2r_le in W. assert (GE : (0 <= a)%Qc). { apply Qcnot_lt_le. intros K. apply Qcltb_lt in K. congruence. }
    apply q2r_le in GE. rewrite q2r_0 in GE. rewrite Rabs_right by lra. exact W.
Qed.
Lemma q2r_qn m : q2r (qn m) = INR m.
Proof. unfold q2r, qn. transitivity (Q2R (inject_Z (Z.of_nat m))); [apply Qeq_eqR; apply Qred_correct|]. unfold Q2R, inject_Z. simpl. rewrite INR_IZR_INZ. field. Qed.
Lemma q2r_gam t : q2r (1 / qn (density t))%Qc = gam t.
Proof.
  unfold gam. assert (NZ : INR (density t) <> 0) by (apply not_0_INR; pose proof (density_pos t); lia).
  apply (Rmult_eq_reg_r (INR (density t))); [|assumption]. rewrite Rinv_l by assumption. rewrite <- q2r_qn, <- q2r_mult.
  replace (1 / qn (density t) * qn (density t))%Qc with 1%Qc; [apply q2r_1|]. field. intros K. apply NZ. rewrite <- q2r_qn, K. apply q2r_0.
Qed.
Lemma AR_tab co s q : AR_ (tabR co) s q = q2r (A_ co s q).
Proof. unfold AR_, A_, tabR. simpl. rewrite <- q2r_0. apply (map_nth q2r). Qed.
Lemma CR_tab co s : CR_ (tabR co) s = q2r (C_ co s).
Proof. unfold CR_, C_, tabR. destruct s; [symmetry; apply q2r_0|]. simpl. rewrite <- q2r_0. apply (map_nth q2r). Qed.
Lemma phi_tab co : forall t s, phi (AR_ (tabR co)) t s = q2r (stage_weight co t s).
Proof.
  fix REC 1. intros [l] s. simpl. induction l as [|t l I]; simpl; [symmetry; apply q2r_1|]. rewrite q2r_mult, q2r_sum. rewrite I. f_equal.
  apply rsum_ext. intros q _. rewrite q2r_mult, AR_tab. f_equal. apply REC.
Qed.
Lemma entry_le l A k : (0 <= A)%Qc -> Forall (fun e => (Qcabs e <= A)%Qc) l -> Rabs (q2r (nth k l 0%Qc)) <= q2r A.
Proof.
  intros A0 FA. apply q2r_abs. destruct (le_lt_dec (length l) k) as [LE|LT]; [rewrite nth_overflow by assumption; exact A0|].
  exact (proj1 (Forall_forall _ _) FA _ (nth_In l _ LT)).
Qed.
Lemma table_upto co stages ix p delta A : (0 < p)%nat -> (0 <= A)%Qc -> (delta <= 1)%Qc -> entries_upto co A -> order_upto co stages ix p delta ->
  table_ok p stages ix (q2r A) (tabR co) (q2r delta).
Proof.
  intros Hp A0 D1 EN [OC RS]. unfold entries_upto in EN. apply Forall_app in EN. destruct EN as [EA EN]. apply Forall_app in EN. destruct EN as [EB EC].
  split; [intros s q _ _; rewrite AR_tab; apply entry_le; assumption|]. split; [intros s _; rewrite BR_tab; apply entry_le; assumption|].
  split. { intros s _. rewrite CR_tab. destruct s; [simpl; rewrite q2r_0, Rabs_R0; apply q2r_le in A0; rewrite q2r_0 in A0; exact A0|]. apply entry_le; assumption. }
  split. { intros s Hs. rewrite CR_tab. rewrite (rsum_ext s _ (fun q => q2r (A_ co s q))) by (intros; apply AR_tab). rewrite <- (q2r_sum s (fun q => A_ co s q)), <- q2r_minus.
    rewrite <- Rabs_Ropp, <- q2r_opp. replace (- (C_ co s - qsum s (fun q => A_ co s q)))%Qc with (qsum s (fun i => A_ co s i) - C_ co s)%Qc by ring. apply q2r_abs. exact (RS s Hs). }
  assert (W : forall t, (order t <= p)%nat -> Rabs (rsum stages (fun s => BR_ (tabR co) stages ix s * phi (AR_ (tabR co)) t s) - gam t) <= q2r delta).
  { intros t Ht. rewrite (rsum_ext stages _ (fun s => q2r (B_ co stages ix s * stage_weight co t s)%Qc)) by (intros; rewrite q2r_mult, BR_tab, phi_tab; reflexivity).
    rewrite <- (q2r_sum stages (fun s => B_ co stages ix s * stage_weight co t s)%Qc), <- q2r_gam, <- q2r_minus. apply q2r_abs. exact (OC t Ht). }
  split; [exact W|]. split; [|apply q2r_le in D1; rewrite q2r_1 in D1; exact D1].
  eapply Rle_trans; [apply Rabs_pos|]. apply (W (Node [])). simpl. lia.
Qed.
Lemma order_exact co stages ix p : order_conditions co stages ix p -> row_sums co stages -> order_upto co stages ix p 0%Qc.
Proof.
  intros OC RS. assert (Z : Qcabs 0%Qc = 0%Qc) by reflexivity. split; [intros t Ht; rewrite OC by assumption|intros s Hs; rewrite RS by assumption].
  - replace (1 / qn (density t) - 1 / qn (density t))%Qc with 0%Qc by ring. rewrite Z. apply Qcle_refl.
  - replace (C_ co s - C_ co s)%Qc with 0%Qc by ring. rewrite Z. apply Qcle_refl.
Qed.
Lemma entries_exist co : exists A, (0 <= A)%Qc /\ entries_upto co A.
Proof.
  unfold entries_upto. set (l := co_a co ++ co_b co ++ co_c co). clearbody l. induction l as [|a l [A [A0 I]]]; [exists 0%Qc; split; [apply Qcle_refl|constructor]|].
  assert (N0 : (0 <= Qcabs a)%Qc). { unfold Qcabs. destruct (Qcltb a 0)%Qc eqn:LT; [apply Qcltb_lt in LT; qclra|]. apply Qcnot_lt_le. intros K. apply Qcltb_lt in K. congruence. }
  exists (A + Qcabs a)%Qc. split; [qclra|]. constructor; [qclra|]. eapply Forall_impl; [|exact I]. intros e He. cbv beta in *. qclra.
Qed.

(** * The statements *)
Lemma order_fixed f n L X t0 T p stages (A : Qc) : (0 < p)%nat -> sized n f -> 0 <= L -> lipschitz n L f -> 0 <= T -> solves n f X t0 (t0 + T) ->
  smooth_along n p f X t0 (t0 + T) -> (0 <= A)%Qc ->
  exists C, 0 <= C /\ forall co delta, wf_table co stages 1 -> shortcut_ok co stages -> entries_upto co A -> order_upto co stages 0 p delta -> (delta <= 1)%Qc ->
  forall (W : Type) (s0 : rkst RNum W) h count x0 d, 0 < h -> INR count * h <= T -> length x0 = n -> 0 <= d -> near n x0 (X t0) d ->
  exists s' posts, rk_steps (N:=RNum) no_events (rhs_of f) (tabR co) n h count (rk_set (N:=RNum) no_events t0 x0 s0) = Ret (s', posts) /\
    rk_t s' = t0 + INR count * h /\ near n (rk_x s') (X (rk_t s')) (C * (d + h ^ p + q2r delta)).
Proof.
  intros Hp SZ HL LIP HT SO SM A0. assert (AR0 : 0 <= q2r A) by (apply q2r_le in A0; rewrite q2r_0 in A0; exact A0).
  destruct (path_order n p stages 0 f X t0 T L (q2r A) Hp SZ HT SO HL LIP AR0 SM) as [C [C0 HC]]. exists C. split; [assumption|].
  intros co delta WF SC EN OU D1 W s0 h count x0 d Hh TL Lx Hd NR.
  destruct (fixed_path (rhs_of f) (tabR co) stages n h (wf_tab co stages 1 WF) (sc_tab co stages SC) (rk_w s0) t0 x0 s0 count (good_of n f _ SZ) eq_refl Lx) as [s' [posts [E P]]].
  exists s', posts. split; [exact E|].
  destruct (HC (tabR co) (q2r delta) (repeat h count) x0 (rk_t s', rk_x s') d h (table_upto co stages 0 p delta A Hp A0 D1 EN OU) P) as [E1 N];
    [apply Forall_repeat; intros _; lra|rewrite total_repeat; assumption|exact Lx|exact Hd|exact NR|lra|].
  cbn [fst snd] in E1, N. rewrite total_repeat in E1. split; assumption.
Qed.
Lemma order_adaptive f n L X t0 T p stages ix (A : Qc) : (0 < p)%nat -> (ix < 2)%nat -> sized n f -> 0 <= L -> lipschitz n L f -> 0 <= T -> solves n f X t0 (t0 + T) ->
  smooth_along n p f X t0 (t0 + T) -> (0 <= A)%Qc ->
  exists C, 0 <= C /\ forall co delta, wf_table co stages 2 -> shortcut_ok co stages -> entries_upto co A -> order_upto co stages ix p delta -> (delta <= 1)%Qc ->
  forall (c : erkcfg RNum) (W : Type) (s0 s' : rkst RNum W) l H x0 d, e_n c = n -> e_co c = tabR co -> e_mode c = ix -> length x0 = n -> 0 <= d -> near n x0 (X t0) d ->
    adaptive_run (rhs_of f) c (erk_set (N:=RNum) no_events t0 x0 s0) l s' -> Forall (fun h => 0 < h <= H) l -> 0 <= H -> total l <= T ->
    rk_t s' = t0 + total l /\ near n (rk_x s') (X (rk_t s')) (C * (d + H ^ p + q2r delta)).
Proof.
  intros Hp HX SZ HL LIP HT SO SM A0. assert (AR0 : 0 <= q2r A) by (apply q2r_le in A0; rewrite q2r_0 in A0; exact A0).
  destruct (path_order n p stages ix f X t0 T L (q2r A) Hp SZ HT SO HL LIP AR0 SM) as [C [C0 HC]]. exists C. split; [assumption|].
  intros co delta WF SC EN OU D1 c W s0 s' l H x0 d En Ec Em Lx Hd NR RUN FA HH TL.
  pose proof (adaptive_path (rhs_of f) c stages (rk_w s0)) as AP. rewrite Ec, Em, En in AP.
  pose proof (AP (wf_tab co stages 2 WF) (sc_tab co stages SC) HX (good_of n f _ SZ) (erk_set (N:=RNum) no_events t0 x0 s0) l s' RUN) as P.
  assert (RD : readyA c stages (rk_w s0) (erk_set (N:=RNum) no_events t0 x0 s0)) by (split; [rewrite En; exact Lx|]; split; [reflexivity|left; reflexivity]).
  exact (HC (tabR co) (q2r delta) l x0 (rk_t s', rk_x s') d H (table_upto co stages ix p delta A Hp A0 D1 EN OU) (P RD) FA TL Lx Hd NR HH).
Qed.
