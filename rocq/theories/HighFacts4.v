(** HighFacts4.v - the computed step as a sum over trees; the local error. *)
From Coq Require Import List Arith Lia Bool Reals Lra.
From Verif Require Import Base VecModel VOps RkModel RkSpec RkFacts4 StepModel StepSpec ConvSpec ConvFacts ConvFacts2 ConvFacts3 ConvFacts4 HighSpec HighFacts HighFacts2 HighFacts3.
Import ListNotations.
Local Open Scope R_scope.

Fixpoint phi (a : nat -> nat -> R) (t : tree) (s : nat) : R :=
  match t with Node l => fold_right (fun c r => rsum s (fun q => a s q * phi a c q) * r) 1 l end.
Lemma phi_kids a t s : phi a t s = kids (fun c => rsum s (fun q => a s q * phi a c q)) t.
Proof. destruct t as [l]. reflexivity. Qed.
Record ncase := mkCase { nc_co : coeffs RNum; nc_d : R; nc_t : R; nc_h : R; nc_ev : list (R * list R); nc_k : list (list R) }.

Section Numeric.
Context (n p stages ix : nat) (f : R -> list R -> list R) (X : R -> list R) (t0 T : R) (D : R -> nat -> list nat -> R) (rho B M L A : R).
Hypothesis Hp : (0 < p)%nat.
Hypothesis SZ : sized n f.
Hypothesis SO : solves n f X t0 (t0 + T).
Hypothesis HL : 0 <= L.
Hypothesis LIP : lipschitz n L f.
Hypothesis HM : 0 <= M.
Hypothesis HA : 0 <= A.
Hypothesis HB0 : 0 <= B.
Hypothesis HB : forall t j, t0 <= t <= t0 + T -> (j < n)%nat -> Rabs (cmpR (f t (X t)) j) <= M.
Hypothesis HT : forall t, t0 <= t <= t0 + T -> taylor n p f t (X t) (D t) rho B.
Notation F := (fun t x => Ret (f t x)).

Definition table_ok (co : coeffs RNum) (delta : R) : Prop :=
  (forall s q, (s < stages)%nat -> (q < s)%nat -> Rabs (AR_ co s q) <= A) /\ (forall s, (s < stages)%nat -> Rabs (BR_ co stages ix s) <= A) /\
  (forall s, (s < stages)%nat -> Rabs (CR_ co s) <= A) /\ (forall s, (s < stages)%nat -> Rabs (CR_ co s - rsum s (AR_ co s)) <= delta) /\
  (forall t, (order t <= p)%nat -> Rabs (rsum stages (fun s => BR_ co stages ix s * phi (AR_ co) t s) - gam t) <= delta) /\ 0 <= delta <= 1.
Definition validN (H : R) (i : ncase) : Prop :=
  table_ok (nc_co i) (nc_d i) /\ t0 <= nc_t i /\ 0 < nc_h i <= H /\ nc_t i + nc_h i <= t0 + T /\
  stagesR (nc_co i) stages n F (X (nc_t i)) (nc_t i) (nc_h i) (nc_ev i) (nc_k i).
Definition kN (s : nat) (i : ncase) (j : nat) : R := match j with O => 1 | S k => cmpR (nth s (nc_k i) []) k end.
Definition uN (s : nat) (i : ncase) : nat -> R := shift (nc_t i) (X (nc_t i)) (fst (nth s (nc_ev i) (0, []))) (snd (nth s (nc_ev i) (0, []))).
Lemma stage_facts H i s : validN H i -> (s < stages)%nat -> exists arg, nth s (nc_ev i) (0, []) = (nc_t i + nc_h i * CR_ (nc_co i) s, arg) /\
  nth s (nc_k i) [] = f (nc_t i + nc_h i * CR_ (nc_co i) s) arg /\ length arg = n /\
  forall j, (j < n)%nat -> cmpR arg j - cmpR (X (nc_t i)) j = nc_h i * rsum s (fun q => AR_ (nc_co i) s q * kN q i (S j)).
Proof.
  intros [_ [_ [_ [_ [_ [_ ST]]]]]] Hs. destruct (ST s Hs) as [a [A1 [A2 [A3 A4]]]]. exists a. split; [apply nth_error_nth; exact A1|]. split; [injection A2 as <-; reflexivity|].
  split; [assumption|]. intros j Hj. rewrite A4 by assumption. simpl. ring.
Qed.
Lemma uN_at H i s j : validN H i -> (s < stages)%nat -> (j < S n)%nat ->
  uN s i j = nc_h i * (rsum s (fun q => AR_ (nc_co i) s q * kN q i j) + match j with O => CR_ (nc_co i) s - rsum s (AR_ (nc_co i) s) | S _ => 0 end).
Proof.
  intros V Hs Hj. destruct (stage_facts H i s V Hs) as [a [E [_ [_ EA]]]]. unfold uN. rewrite E. cbn [fst snd]. destruct j as [|j]; simpl.
  - rewrite (rsum_ext s (fun q => AR_ (nc_co i) s q * 1) (AR_ (nc_co i) s)) by (intros; ring). ring.
  - rewrite EA by lia. simpl. ring.
Qed.
Lemma slopes_bounded H s : 0 <= H -> (s < stages)%nat -> exists C, 0 <= C /\ forall i j, validN H i -> (j < S n)%nat -> Rabs (kN s i j) <= C.
Proof.
  intros HH. induction s as [s I] using lt_wf_ind. intros Hs.
  assert (UN : forall m, (m <= s)%nat -> exists C, 0 <= C /\ forall q i j, (q < m)%nat -> validN H i -> (j < S n)%nat -> Rabs (kN q i j) <= C).
  { induction m as [|m J]; intros Hm; [exists 0; split; [lra|intros; lia]|]. destruct J as [C [C0 HC]]; [lia|]. destruct (I m ltac:(lia) ltac:(lia)) as [C' [C0' HC']].
    exists (Rmax C C'). split; [eapply Rle_trans; [exact C0|apply Rmax_l]|]. intros q i j Hq V Hj. destruct (Nat.eq_dec q m) as [->|NE].
    - eapply Rle_trans; [apply HC'; assumption|apply Rmax_r].
    - eapply Rle_trans; [apply HC; [lia|assumption|assumption]|apply Rmax_l]. }
  destruct (UN s (le_n _)) as [C [C0 HC]].
  set (S1 := H * rsum s (fun _ => A * C)).
  assert (S0 : 0 <= S1) by (apply Rmult_le_pos; [assumption|]; apply rsum_nonneg; intros; apply Rmult_le_pos; assumption).
  assert (HA' : 0 <= H * A) by (apply Rmult_le_pos; assumption).
  assert (LP : 0 <= L * (H * A + S1)) by (apply Rmult_le_pos; lra).
  exists (1 + M + L * (H * A + S1)). split; [lra|]. intros i j V Hj. destruct j as [|j]; [simpl; rewrite Rabs_R1; lra|].
  destruct (stage_facts H i s V Hs) as [a [_ [EK [LA EA]]]]. simpl. rewrite EK.
  destruct V as [[TA [TB [TC [TR [TW TD]]]]] [V1 [V2 [V3 V4]]]].
  assert (V : validN H i) by (split; [repeat split; try assumption; apply TD|repeat split; try lra; apply V4]).
  assert (NA : near n a (X (nc_t i)) S1).
  { intros k Hk. rewrite EA by assumption. rewrite Rabs_mult, (Rabs_right (nc_h i)) by lra. unfold S1. apply Rmult_le_compat; [lra|apply Rabs_pos|lra|].
    eapply Rle_trans; [apply rsum_abs|]. apply rsum_le. intros q Hq. rewrite Rabs_mult. apply Rmult_le_compat; [apply Rabs_pos|apply Rabs_pos|apply TA; assumption|apply HC; [assumption|assumption|lia]]. }
  assert (LX : length (X (nc_t i)) = n) by (apply SO; lra).
  pose proof (LIP (nc_t i + nc_h i * CR_ (nc_co i) s) (nc_t i) a (X (nc_t i)) S1 LA LX NA j ltac:(lia)) as K.
  assert (K2 : Rabs (cmpR (f (nc_t i) (X (nc_t i))) j) <= M) by (apply HB; [lra|lia]).
  set (y := cmpR (f (nc_t i + nc_h i * CR_ (nc_co i) s) a) j) in *. set (z := cmpR (f (nc_t i) (X (nc_t i))) j) in *.
  replace y with (z + (y - z)) by ring. eapply Rle_trans; [apply Rabs_triang|].
  assert (K3 : L * (Rabs (nc_t i + nc_h i * CR_ (nc_co i) s - nc_t i) + S1) <= L * (H * A + S1)).
  { apply Rmult_le_compat_l; [assumption|]. apply Rplus_le_compat_r. replace (nc_t i + nc_h i * CR_ (nc_co i) s - nc_t i) with (nc_h i * CR_ (nc_co i) s) by ring.
    rewrite Rabs_mult, (Rabs_right (nc_h i)) by lra. apply Rmult_le_compat; [lra|apply Rabs_pos|lra|apply TC; assumption]. }
  lra.
Qed.
Lemma all_slopes_bounded H : 0 <= H -> exists C, 0 <= C /\ forall s i j, (s < stages)%nat -> validN H i -> (j < S n)%nat -> Rabs (kN s i j) <= C.
Proof.
  intros HH. assert (UN : forall m, (m <= stages)%nat -> exists C, 0 <= C /\ forall q i j, (q < m)%nat -> validN H i -> (j < S n)%nat -> Rabs (kN q i j) <= C).
  { induction m as [|m J]; intros Hm; [exists 0; split; [lra|intros; lia]|]. destruct J as [C [C0 HC]]; [lia|]. destruct (slopes_bounded H m HH ltac:(lia)) as [C' [C0' HC']].
    exists (Rmax C C'). split; [eapply Rle_trans; [exact C0|apply Rmax_l]|]. intros q i j Hq V Hj. destruct (Nat.eq_dec q m) as [->|NE].
    - eapply Rle_trans; [apply HC'; assumption|apply Rmax_r].
    - eapply Rle_trans; [apply HC; [lia|assumption|assumption]|apply Rmax_l]. }
  exact (UN stages (le_n _)).
Qed.
Lemma validN_mono H H' i : H <= H' -> validN H i -> validN H' i.
Proof. intros LE [V0 [V1 [V2 [V3 V4]]]]. split; [assumption|]. split; [assumption|]. split; [lra|]. split; assumption. Qed.

(** with steps small enough for the Taylor expansions *)
Context (H C K : R).
Hypothesis C0 : 0 <= C.
Hypothesis HC : forall s i j, (s < stages)%nat -> validN H i -> (j < S n)%nat -> Rabs (kN s i j) <= C.
Hypothesis KD : K = rsum stages (fun _ => A * C) + 1.
Hypothesis HR : K * H <= rho.
Hypothesis HRX : (1 + M) * H <= rho.
Notation valid := (validN H).
Notation bigN := (big valid nc_h nc_d).
Lemma vN i : valid i -> 0 < nc_h i <= H. Proof. intros V. apply V. Qed.
Lemma dN i : valid i -> 0 <= nc_d i <= 1. Proof. intros V. apply V. Qed.
Definition cN (i : ncase) : nat -> list nat -> R := caug (D (nc_t i)).
Lemma t_in i : valid i -> t0 <= nc_t i <= t0 + T. Proof. intros [_ [V1 [V2 [V3 _]]]]. lra. Qed.
Lemma cN_big j idx : (j < S n)%nat -> (length idx < p)%nat -> bigN 0 (fun i => cN i j idx).
Proof.
  intros Hj Hi. destruct j as [|j]; simpl.
  - apply (big_const valid nc_h nc_d dN).
  - apply (big_bound valid nc_h nc_d dN _ B). intros i V. unfold cN, caug. apply (HT (nc_t i)); [apply t_in; assumption|lia|assumption].
Qed.
Lemma A_big s q : (s < stages)%nat -> (q < s)%nat -> bigN 0 (fun i => AR_ (nc_co i) s q).
Proof. intros Hs Hq. apply (big_bound valid nc_h nc_d dN _ A). intros i V. apply V; assumption. Qed.
Lemma B_big s : (s < stages)%nat -> bigN 0 (fun i => BR_ (nc_co i) stages ix s).
Proof. intros Hs. apply (big_bound valid nc_h nc_d dN _ A). intros i V. apply V; assumption. Qed.
Lemma phi_big : forall t s, (s < stages)%nat -> bigN 0 (fun i => phi (AR_ (nc_co i)) t s).
Proof.
  fix REC 1. intros [l] s Hs. simpl. induction l as [|t l I]; simpl; [apply (big_const valid nc_h nc_d dN)|].
  apply (big_mult valid nc_h nc_d H vN dN 0 0); [|exact I]. apply (big_rsum valid nc_h nc_d dN). intros q Hq. apply (big_mult valid nc_h nc_d H vN dN 0 0); [apply A_big; assumption|].
  apply REC. lia.
Qed.
Lemma uN_small i s j : valid i -> (s < stages)%nat -> (j < S n)%nat -> Rabs (uN s i j) <= (rsum s (fun _ => A * C) + nc_d i) * nc_h i.
Proof.
  intros V Hs Hj. rewrite (uN_at H) by assumption. pose proof (vN i V) as HV. rewrite Rabs_mult, (Rabs_right (nc_h i)), Rmult_comm by lra. apply Rmult_le_compat_r; [lra|].
  eapply Rle_trans; [apply Rabs_triang|]. apply Rplus_le_compat.
  - eapply Rle_trans; [apply rsum_abs|]. apply rsum_le. intros q Hq. rewrite Rabs_mult. apply Rmult_le_compat; [apply Rabs_pos|apply Rabs_pos|apply V; assumption|apply HC; [lia|assumption|assumption]].
  - destruct j; [apply V; assumption|]. rewrite Rabs_R0. apply dN. assumption.
Qed.
Lemma rsum_mono_n m k g : (m <= k)%nat -> (forall i, 0 <= g i) -> rsum m g <= rsum k g.
Proof. intros LE G. induction LE as [|k LE I]; [lra|]. simpl. specialize (G k). lra. Qed.
Lemma uN_K i s j : valid i -> (s < stages)%nat -> (j < S n)%nat -> Rabs (uN s i j) <= K * nc_h i.
Proof.
  intros V Hs Hj. eapply Rle_trans; [apply uN_small; assumption|]. pose proof (vN i V) as HV. apply Rmult_le_compat_r; [lra|]. rewrite KD. apply Rplus_le_compat; [|apply dN; assumption].
  apply rsum_mono_n; [lia|]. intros _. apply Rmult_le_pos; assumption.
Qed.
Lemma K0 : 0 <= K.
Proof. rewrite KD. assert (0 <= rsum stages (fun _ => A * C)); [|lra]. apply rsum_nonneg. intros _ _. apply Rmult_le_pos; assumption. Qed.
Lemma kN_taylor s j : (s < stages)%nat -> (j < S n)%nat -> bigN p (fun i => kN s i j - rsum p (fun m => form (S n) (cN i j) (repeat (uN s i) m) / INR (fact m))).
Proof.
  intros Hs Hj. pose proof K0 as KN. destruct j as [|j].
  - apply (big_ext valid nc_h nc_d p (fun _ => 0)); [|apply (big_zero valid nc_h nc_d dN)]. intros i V. unfold cN. rewrite (time_row (S n) (D (nc_t i)) (uN s i) p Hp). simpl. ring.
  - apply (big_le valid nc_h nc_d dN p _ (B * K ^ p)); [apply Rmult_le_pos; [assumption|apply pow_le; assumption]|].
    intros i V. rewrite Rmult_assoc, <- Rpow_mult_distr. pose proof (uN_K i s) as U.
    destruct (stage_facts H i s V Hs) as [a [E [EK [LA EA]]]]. simpl kN. rewrite EK. unfold uN in *. rewrite E in U |- *. cbn [fst snd] in U |- *.
    destruct (HT (nc_t i) (t_in i V)) as [_ TY]. pose proof (vN i V) as HV.
    apply (TY (nc_t i + nc_h i * CR_ (nc_co i) s) a (K * nc_h i)); [assumption| | | |lia].
    + exact (U 0%nat V Hs ltac:(lia)).
    + intros k Hk. exact (U (S k) V Hs ltac:(lia)).
    + eapply Rle_trans; [|exact HR]. apply Rmult_le_compat_l; lra.
Qed.
Definition slopes (d s : nat) (i : ncase) (j : nat) : R :=
  lsum (trees p d) (fun t => nc_h i ^ (order t - 1) * phi (AR_ (nc_co i)) t s * cf t * diffl (S n) (cN i) t j).
Lemma slopes_series d : (d <= p)%nat -> forall s j, (s < stages)%nat -> (j < S n)%nat -> bigN d (fun i => kN s i j - slopes d s i j).
Proof.
  induction d as [|d I]; intros Hd s j Hs Hj.
  - apply (big_bound valid nc_h nc_d dN _ C). intros i V. unfold slopes. simpl lsum. rewrite Rminus_0_r. apply HC; assumption.
  - assert (Hdp : (d < p)%nat) by lia. set (a := fun i t => rsum s (fun q => AR_ (nc_co i) s q * phi (AR_ (nc_co i)) t q)).
    apply (big_ext valid nc_h nc_d (S d) (fun i => kN s i j - lsum (trees p (S d)) (fun t => nc_h i ^ (order t - 1) * kids (a i) t * cf t * diffl (S n) (cN i) t j))).
    { intros i V. unfold slopes. f_equal. apply lsum_ext. intros t _. rewrite (phi_kids (AR_ (nc_co i)) t s). reflexivity. }
    apply (compose valid nc_h nc_d H vN dN (S n) p cN cN_big d a (uN s) (kN s) Hdp); [| |intros k Hk; apply kN_taylor; assumption|assumption].
    + intros t _. apply (big_rsum valid nc_h nc_d dN). intros q Hq. apply (big_mult valid nc_h nc_d H vN dN 0 0); [apply A_big; assumption|apply phi_big; lia].
    + intros k Hk.
      apply (big_ext valid nc_h nc_d (S d) (fun i => nc_h i ^ 1 * rsum s (fun q => AR_ (nc_co i) s q * (kN q i k - slopes d q i k)) +
         nc_h i * match k with O => CR_ (nc_co i) s - rsum s (AR_ (nc_co i) s) | S _ => 0 end)).
      { intros i V. rewrite (uN_at H i s k V Hs Hk). rewrite pow_1.
        assert (E : series nc_h (S n) p cN a d i k = nc_h i * rsum s (fun q => AR_ (nc_co i) s q * slopes d q i k)).
        { unfold series, slopes. rewrite (rsum_ext s _ (fun q => lsum (trees p d) (fun t => AR_ (nc_co i) s q * (nc_h i ^ (order t - 1) * phi (AR_ (nc_co i)) t q * cf t * diffl (S n) (cN i) t k)))) by (intros; apply lsum_mult).
          rewrite rsum_lsum, lsum_mult. apply lsum_ext. intros t _. pose proof (order_pos t) as OP. replace (order t) with (S (order t - 1))%nat at 1 by lia. simpl pow. unfold a.
          rewrite (rsum_ext s (fun q => AR_ (nc_co i) s q * (nc_h i ^ (order t - 1) * phi (AR_ (nc_co i)) t q * cf t * diffl (S n) (cN i) t k))
             (fun q => (nc_h i ^ (order t - 1) * cf t * diffl (S n) (cN i) t k) * (AR_ (nc_co i) s q * phi (AR_ (nc_co i)) t q))) by (intros; ring).
          rewrite <- (rsum_const_mult s (fun q => AR_ (nc_co i) s q * phi (AR_ (nc_co i)) t q)). ring. }
        rewrite E. rewrite (rsum_ext s (fun q => AR_ (nc_co i) s q * (kN q i k - slopes d q i k)) (fun q => AR_ (nc_co i) s q * kN q i k - AR_ (nc_co i) s q * slopes d q i k)) by (intros; ring).
        rewrite <- (rsum_minus s (fun q => AR_ (nc_co i) s q * kN q i k) (fun q => AR_ (nc_co i) s q * slopes d q i k)). ring. }
      apply (big_plus valid nc_h nc_d).
      * apply (big_mult valid nc_h nc_d H vN dN 1 d); [apply (big_h valid nc_h nc_d H vN dN)|]. apply (big_rsum valid nc_h nc_d dN). intros q Hq.
        apply (big_mult valid nc_h nc_d H vN dN 0 d); [apply A_big; assumption|]. apply I; [lia|lia|assumption].
      * apply (big_d valid nc_h nc_d H vN (S d) _ (Rabs H)); [apply Rabs_pos|]. intros i V. pose proof (vN i V) as HV. rewrite Rabs_mult.
        apply Rmult_le_compat; [apply Rabs_pos|apply Rabs_pos| |]; [rewrite Rabs_right by lra; eapply Rle_trans; [|apply Rle_abs]; lra|].
        destruct k; [apply V; assumption|]. rewrite Rabs_R0. apply dN. assumption.
Qed.
(** the local error *)
Definition nextN (i : ncase) (j : nat) : R := cmpR (X (nc_t i)) j + nc_h i * rsum stages (fun s => BR_ (nc_co i) stages ix s * cmpR (nth s (nc_k i) []) j).
Lemma local_order j : (j < n)%nat -> exists Q, 0 <= Q /\ forall i, valid i -> Rabs (nextN i j - cmpR (X (nc_t i + nc_h i)) j) <= nc_h i * (Q * (nc_h i ^ p + nc_d i)).
Proof.
  intros Hj. set (k := S j). assert (Hk : (k < S n)%nat) by (unfold k; lia).
  assert (EX : bigN p (fun i => / nc_h i * (uX X (nc_t i, nc_h i) k - series snd (S n) p (cX D) (fun _ => gam) p (nc_t i, nc_h i) k))).
  { destruct (exact_series n p f X t0 T D rho B M H Hp SO HM HB0 HB HT HRX p (le_n _) k Hk) as [Q [Q0 HQ]].
    apply (big_le valid nc_h nc_d dN p _ Q Q0). intros i V. pose proof (vN i V) as HV.
    assert (VX : validX t0 T H (nc_t i, nc_h i)) by (unfold validX; simpl; destruct V as [_ [V1 [V2 [V3 _]]]]; lra).
    specialize (HQ (nc_t i, nc_h i) VX). cbn [snd] in HQ. rewrite Rplus_0_r in HQ. simpl pow in HQ. rewrite Rabs_mult, (Rabs_right (/ nc_h i)) by (left; apply Rinv_0_lt_compat; lra).
    apply (Rmult_le_reg_l (nc_h i)); [lra|]. rewrite <- Rmult_assoc, Rinv_r, Rmult_1_l by lra. lra. }
  assert (ST : bigN p (fun i => rsum stages (fun s => BR_ (nc_co i) stages ix s * (kN s i k - slopes p s i k)))).
  { apply (big_rsum valid nc_h nc_d dN). intros s Hs. apply (big_mult valid nc_h nc_d H vN dN 0 p); [apply B_big; assumption|]. apply slopes_series; [lia|assumption|assumption]. }
  assert (TR : bigN p (fun i => lsum (trees p p) (fun t => nc_h i ^ (order t - 1) * (rsum stages (fun s => BR_ (nc_co i) stages ix s * phi (AR_ (nc_co i)) t s) - gam t) * (cf t * diffl (S n) (cN i) t k)))).
  { apply (big_lsum valid nc_h nc_d dN). intros t Ht. replace p with (p + 0)%nat by lia. apply (big_mult valid nc_h nc_d H vN dN p 0).
    2:{ apply (big_scale valid nc_h nc_d H vN dN). apply (diffl_big valid nc_h nc_d H vN dN (S n) p cN cN_big p); assumption. }
    destruct (le_lt_dec (order t) p) as [O1|O1].
    - apply (big_mult valid nc_h nc_d H vN dN 0 p (fun i => nc_h i ^ (order t - 1))); [apply (big_weaken valid nc_h nc_d H vN dN (order t - 1)); [lia|]; apply (big_h valid nc_h nc_d H vN dN)|].
      apply (big_d valid nc_h nc_d H vN p _ 1); [lra|]. intros i V. rewrite Rmult_1_l. apply V. assumption.
    - replace p with (p + 0)%nat by lia. apply (big_mult valid nc_h nc_d H vN dN p 0 (fun i => nc_h i ^ (order t - 1))).
      + apply (big_weaken valid nc_h nc_d H vN dN (order t - 1)); [lia|]. apply (big_h valid nc_h nc_d H vN dN).
      + apply (big_minus valid nc_h nc_d); [|apply (big_const valid nc_h nc_d dN)]. apply (big_rsum valid nc_h nc_d dN). intros s Hs.
        apply (big_mult valid nc_h nc_d H vN dN 0 0); [apply B_big; assumption|apply phi_big; assumption]. }
  destruct (big_minus valid nc_h nc_d p _ _ (big_plus valid nc_h nc_d p _ _ ST TR) EX) as [Q [Q0 HQ]]. exists Q. split; [assumption|]. intros i V.
  specialize (HQ i V). pose proof (vN i V) as HV.
  apply (Rmult_le_compat_l (nc_h i)) in HQ; [|lra]. eapply Rle_trans; [|exact HQ]. rewrite <- (Rabs_right (nc_h i)) at 2 by lra. rewrite <- Rabs_mult. right. f_equal.
  unfold nextN. unfold uX. cbn [fst snd]. unfold k at 4. cbn [shift].
  assert (E1 : series snd (S n) p (cX D) (fun _ => gam) p (nc_t i, nc_h i) k = nc_h i * lsum (trees p p) (fun t => nc_h i ^ (order t - 1) * gam t * (cf t * diffl (S n) (cN i) t k))).
  { unfold series. cbn [snd]. rewrite lsum_mult. apply lsum_ext. intros t _. pose proof (order_pos t) as OP. replace (order t) with (S (order t - 1))%nat at 1 by lia. simpl pow. unfold cX, cN. cbn [fst]. ring. }
  assert (E2 : rsum stages (fun s => BR_ (nc_co i) stages ix s * slopes p s i k) =
     lsum (trees p p) (fun t => nc_h i ^ (order t - 1) * rsum stages (fun s => BR_ (nc_co i) stages ix s * phi (AR_ (nc_co i)) t s) * (cf t * diffl (S n) (cN i) t k))).
  { unfold slopes. rewrite (rsum_ext stages _ (fun s => lsum (trees p p) (fun t => BR_ (nc_co i) stages ix s * (nc_h i ^ (order t - 1) * phi (AR_ (nc_co i)) t s * cf t * diffl (S n) (cN i) t k)))) by (intros; apply lsum_mult).
    rewrite rsum_lsum. apply lsum_ext. intros t _. rewrite (Rmult_comm (nc_h i ^ (order t - 1))), Rmult_assoc, rsum_mult. apply rsum_ext. intros s _. ring. }
  rewrite (rsum_ext stages (fun s => BR_ (nc_co i) stages ix s * (kN s i k - slopes p s i k)) (fun s => BR_ (nc_co i) stages ix s * kN s i k - BR_ (nc_co i) stages ix s * slopes p s i k)) by (intros; ring).
  rewrite <- (rsum_minus stages (fun s => BR_ (nc_co i) stages ix s * kN s i k) (fun s => BR_ (nc_co i) stages ix s * slopes p s i k)). rewrite E2.
  rewrite (lsum_ext (trees p p) (fun t => nc_h i ^ (order t - 1) * (rsum stages (fun s => BR_ (nc_co i) stages ix s * phi (AR_ (nc_co i)) t s) - gam t) * (cf t * diffl (S n) (cN i) t k))
    (fun t => nc_h i ^ (order t - 1) * rsum stages (fun s => BR_ (nc_co i) stages ix s * phi (AR_ (nc_co i)) t s) * (cf t * diffl (S n) (cN i) t k) + (-1) * (nc_h i ^ (order t - 1) * gam t * (cf t * diffl (S n) (cN i) t k)))) by (intros; ring).
  rewrite <- lsum_plus, <- lsum_mult.
  change (series snd (S n) p (cX D) (fun _ => gam) p (nc_t i, nc_h i) k) with (series snd (S n) p (cX D) (fun _ => gam) p (nc_t i, nc_h i) k). rewrite E1.
  change (fun s => BR_ (nc_co i) stages ix s * kN s i k) with (fun s => BR_ (nc_co i) stages ix s * cmpR (nth s (nc_k i) []) j). field. lra.
Qed.
End Numeric.
