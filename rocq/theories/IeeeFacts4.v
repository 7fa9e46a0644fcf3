(** IeeeFacts4.v - rational tables in doubles; linear systems in doubles. *)
From Coq Require Import List Arith Bool ZArith Lia Reals Lra.
From Coq Require Import QArith Qcanon.
From Flocq Require Import Core IEEE754.BinarySingleNaN.
From Verif Require Import Base BaseFacts VecModel VOps RkModel RkSpec RkFacts StepModel StepSpec ConvSpec ConvFacts ConvFacts3 ConvFacts4 ConvFacts5 HighSpec HighFacts5 FpSpec FpFacts FpFacts2 FpFacts3 FpFacts4 FpFacts5 FpFacts6 IeeeSpec IeeeFacts IeeeFacts2 IeeeFacts3.
Import ListNotations.
Local Open Scope R_scope.

Lemma to_holds r : Rabs r <= 2 ^ 1002 -> holds (toD r) (b64 r).
Proof.
  intros H. pose proof (in_range r H) as HR. set (v := b64 r) in *.
  assert (F : generic_format radix2 (FLT_exp (-1074) 53) v) by (unfold v, b64, binary64; apply generic_format_round; [apply FLT_exp_valid; reflexivity|apply valid_rnd_N]).
  pose proof (binary_normalize_correct 53 1024 double_prec double_range mode_NE (Ztrunc (scaled_mantissa radix2 (FLT_exp (-1074) 53) v)) (cexp radix2 (FLT_exp (-1074) 53) v) false) as C.
  cbv zeta in C. rewrite <- F in C.
  assert (RV : round radix2 (SpecFloat.fexp 53 1024) (round_mode mode_NE) v = v) by (apply round_generic; [apply valid_rnd_N|exact F]).
  rewrite RV in C. rewrite (Rlt_bool_true _ _ HR) in C. destruct C as (C1 & C2 & _). split; [exact C2|exact C1].
Qed.
Lemma list_holds l : (forall a, In a l -> Rabs a <= 2 ^ 1002) -> holdsV (length l) (map toD l) (map b64 l).
Proof.
  intros H. split; [apply map_length|]. split; [apply map_length|]. intros j Hj. unfold cmpR.
  rewrite (nth_indep _ dzero (toD 0)) by (rewrite map_length; exact Hj). rewrite (nth_indep _ 0 (b64 0)) by (rewrite map_length; exact Hj). rewrite !map_nth. apply to_holds, H, nth_In. exact Hj.
Qed.
Lemma table_in_doubles co stages A : table_size A co -> A <= 2 ^ 1000 -> shortcut_ok co stages ->
  table_holds A (tabD co) (tabF b64 co) /\ shortcut_ok (tabD co) stages.
Proof.
  intros HA HA2 SC.
  assert (HB : forall a : R, In a (co_a co) \/ In a (co_b co) \/ In a (co_c co) -> Rabs (a : R) <= 2 ^ 1002).
  { intros a Ha. change (nT RNum) with R in *. specialize (HA a Ha). pose proof (err a) as E. pose proof u_small as [U0 U1]. pose proof (pow_R1_Rle 2 1000 ltac:(lra)) as Z.
    assert (U * Rabs (a : R) <= / 65536 * Rabs (a : R)) by (apply Rmult_le_compat_r; [apply Rabs_pos|lra]). pose proof (Rabs_triang (b64 a) (- (b64 a - a))) as TR. rewrite Rabs_Ropp in TR. replace (b64 a + - (b64 a - a)) with a in TR by ring.
    rewrite <- big4. lra. }
  split.
  - split; [exists (length (co_a co)); apply list_holds; intros a Ha; apply HB; left; exact Ha|].
    split; [exists (length (co_b co)); apply list_holds; intros a Ha; apply HB; right; left; exact Ha|].
    split; [exists (length (co_c co)); apply list_holds; intros a Ha; apply HB; right; right; exact Ha|].
    split; [reflexivity|]. unfold tabF. cbn [co_a co_b co_c]. change (nT (FNum b64)) with R. intros a [H|[H|H]]; apply in_map_iff in H; destruct H as (r & <- & Hr); apply HA; tauto.
  - destruct SC as [NEG|[ix [EL [ST [RR [z [Ez Zz]]]]]]]; [left; exact NEG|]. right. exists ix. split; [exact EL|]. split; [assumption|]. split.
    + intros i Hi. unfold tabD. cbn [co_a co_b]. change (nT DNum) with double. change (nT RNum) with R in *. rewrite !nth_error_map. rewrite (RR i Hi). reflexivity.
    + exists (toD z). split.
      * unfold tabD. cbn [co_b]. change (nT DNum) with double. change (nT RNum) with R in *. rewrite nth_error_map. rewrite Ez. reflexivity.
      * apply Reqb_eq in Zz. change (n0 RNum) with 0 in Zz. rewrite Zz.
        assert (H0 : holds (toD 0) 0). { replace 0 with (b64 0) at 2 by apply (proj1 binary64_rounds). apply to_holds. rewrite Rabs_R0. apply pow_le. lra. }
        transitivity (neqb (FNum b64) 0 0); [exact (d_eqb _ _ _ _ H0 d_zero)|]. change (Reqb 0 0 = true). unfold Reqb. destruct (Req_EM_T 0 0); [reflexivity|congruence].
Qed.
Lemma order_delta co stages p delta : wf_table co stages 1 -> order_upto co stages 0 p delta -> 0 <= q2r delta.
Proof.
  intros (W1 & _) (_ & H). specialize (H 0%nat ltac:(lia)). replace 0 with (q2r 0%Qc) by apply q2r_0. apply q2r_le. eapply Qcle_trans; [apply Qcabs_nonneg|exact H].
Qed.
Lemma rhs_holds_le n S B G S' B' G' gD g : S' <= S -> B' <= B -> G <= G' -> rhs_holds n S B G gD g -> rhs_holds n S' B' G' gD g.
Proof.
  intros HS HB HG H tD xD t x H1 H2 H3 H4. destruct (H tD xD t x H1 H2) as [P1 P2]; [lra|intros j Hj; eapply Rle_trans; [apply H4; exact Hj|exact HB]|].
  split; [exact P1|]. intros j Hj. eapply Rle_trans; [apply P2; exact Hj|exact HG].
Qed.
Lemma linear_nth n M t x i : (i < n)%nat -> cmpR (linearR n M t x) i = rsum n (fun j => M i j * cmpR x j).
Proof.
  intros Hi. unfold cmpR at 1, linearR. rewrite (nth_indep _ 0 (rsum n (fun j => M 0%nat j * cmpR x j))) by (rewrite map_length, seq_length; exact Hi).
  rewrite (map_nth (fun i => rsum n (fun j => M i j * cmpR x j))). rewrite seq_nth by exact Hi. reflexivity.
Qed.
Lemma linear_lip n M a : 0 <= a -> (forall i j, (i < n)%nat -> (j < n)%nat -> Rabs (M i j) <= a) -> lipschitz n (INR n * a) (linearR n M).
Proof.
  intros A0 H t s x y d Lx Ly N i Hi. rewrite !linear_nth by exact Hi. rewrite rsum_minus. eapply Rle_trans; [apply rsum_abs|].
  assert (NA : 0 <= INR n * a) by (apply Rmult_le_pos; [apply pos_INR|exact A0]). pose proof (Rabs_pos (t - s)).
  apply Rle_trans with (INR n * (a * d)).
  - rewrite <- (rsum_const (a * d) n). apply rsum_le. intros j Hj. rewrite <- Rmult_minus_distr_l, Rabs_mult. apply Rmult_le_compat; try apply Rabs_pos; [apply H; assumption|apply N; exact Hj].
  - rewrite <- Rmult_assoc. apply Rmult_le_compat_l; lra.
Qed.
(** The sizes of the states and of the slopes of a linear system fit together. *)
Lemma linear_sizes stages n a A h B : 0 <= a -> 0 <= A -> 0 <= B -> INR n <= 4096 -> Rabs h * A * (INR stages * (INR n * a)) <= / 128 -> INR stages * (INR n * a) <= 2 ^ 40 ->
  let G := 16 * (INR n * a * B) + 2 in 2 * (INR n * (2 * (a * state_size stages A G h B) + / 2 ^ 53)) <= G.
Proof.
  intros A0 AA B0 HN K1 K2 G. pose proof u_small as [U0 U1]. unfold state_size, term_size. change (/ 2 ^ 53) with U in *.
  pose proof (pos_INR n) as N0. pose proof (pos_INR stages) as S0. set (k := INR stages * (INR n * a)) in *. assert (k0 : 0 <= k) by (apply Rmult_le_pos; [lra|apply Rmult_le_pos; lra]).
  assert (KU : U * k <= / 128). { apply Rle_trans with (U * 2 ^ 40); [apply Rmult_le_compat_l; lra|]. unfold U. change (2 ^ 53) with (2 ^ (40 + 13)). rewrite pow_add, Rinv_mult. assert (/ 2 ^ 40 * 2 ^ 40 = 1) by (apply Rinv_l, pow_nonzero; lra). replace (2 ^ 13) with 8192 by (simpl; lra). rewrite (Rmult_comm (/ 2 ^ 40)), Rmult_assoc, H. lra. }
  assert (NB : 0 <= INR n * a * B) by (apply Rmult_le_pos; [apply Rmult_le_pos; lra|lra]). assert (G0 : 0 <= G) by (unfold G; lra).
  assert (NU : INR n * U <= / 16) by (apply Rle_trans with (4096 * / 65536); [apply Rmult_le_compat; lra|lra]).
  replace (2 * (INR n * (2 * (a * (2 * (B + INR stages * (2 * (G * (2 * (Rabs h * A) + U)) + U)))) + U)))
    with (8 * (INR n * a * B) + 32 * (G * (Rabs h * A * k)) + 16 * (G * (U * k)) + 8 * (U * k) + 2 * (INR n * U)) by (unfold k; ring).
  assert (G * (Rabs h * A * k) <= G * / 128) by (apply Rmult_le_compat_l; lra). assert (G * (U * k) <= G * / 128) by (apply Rmult_le_compat_l; lra).
  unfold G in *. lra.
Qed.
Lemma linear_double n M a X t0 T p co stages delta : (0 < p)%nat -> wf_table co stages 1 -> shortcut_ok co stages -> order_upto co stages 0 p delta -> (delta <= 1)%Qc ->
  0 <= a -> (forall i j, (i < n)%nat -> (j < n)%nat -> Rabs (M i j) <= a) -> INR n <= 4096 -> INR stages <= 4096 -> 0 <= T -> solves n (linearR n M) X t0 (t0 + T) -> smooth_along n p (linearR n M) X t0 (t0 + T) ->
  exists C, 0 <= C /\ forall (W : Type) MD (s0 : rkst DNum W) hD h count t0D x0D x0 d A B,
  matrix_holds n a MD M -> table_size A (tabR co) -> 0 <= A <= 2 ^ 1000 -> 0 < h -> holds hD h -> holds t0D t0 -> holdsV n x0D x0 ->
  INR count * h <= T -> INR count * (/ 2 ^ 53 + / 2 ^ 1075) <= 1 -> 0 <= d <= 1 -> near n x0 (X t0) d -> Rabs h * A * (INR stages * (INR n * a)) <= / 128 -> INR stages * (INR n * a) <= 2 ^ 40 ->
  let E := C * (d + h ^ p + q2r delta + (INR count + 1) * (/ 2 ^ 53 + / 2 ^ 1075)) in
  E <= 1 -> (forall t, t0 <= t <= t0 + T -> bound n (X t) (B - E)) -> 0 <= B -> state_size stages A (16 * (INR n * a * B) + 2) h B <= 2 ^ 1000 -> 16 * (INR n * a * B) + 2 <= 2 ^ 1000 -> time_size A h (Rabs t0 + T + E) <= 2 ^ 1000 ->
  exists s' posts t x, rk_steps (N:=DNum) no_events (rhs_ofD (linearD n MD)) (tabD (tabR co)) n hD count (rk_set (N:=DNum) no_events t0D x0D s0) = Ret (s', posts) /\
    holds (rk_t s') t /\ holdsV n (rk_x s') x /\ Rabs (t - (t0 + INR count * h)) <= C * (INR count * (/ 2 ^ 53 + / 2 ^ 1075)) /\ near n x (X (t0 + INR count * h)) E.
Proof.
  intros Hp WF SC OR DL A0 MB HN HSt T0 SV SM.
  assert (SZ : sized n (linearR n M)) by (intros t x _; unfold linearR; rewrite map_length, seq_length; reflexivity).
  destruct (order_double (linearR n M) n (INR n * a) X t0 T p co stages delta Hp WF SC OR DL SZ ltac:(apply Rmult_le_pos; [apply pos_INR|exact A0]) (linear_lip n M a A0 MB) T0 SV SM HSt) as (C & C0 & HC).
  destruct (linear_accurate n M) as (K & K0 & HK).
  assert (U0 : 0 <= / 2 ^ 53) by (left; apply Rinv_0_lt_compat, pow_lt; lra). assert (E0 : 0 <= / 2 ^ 1075) by (left; apply Rinv_0_lt_compat, pow_lt; lra).
  assert (W1 : / 2 ^ 53 + / 2 ^ 1075 <= 1). { pose proof u_small. pose proof eta_small. unfold U in *. lra. }
  destruct (HK b64 (/ 2 ^ 53) (/ 2 ^ 1075) binary64_rounds U0 E0 W1) as [SZF AC].
  set (w := / 2 ^ 53 + / 2 ^ 1075) in *. assert (w0 : 0 <= w) by (unfold w; lra). assert (CK : 0 <= C * K) by (apply Rmult_le_pos; assumption).
  assert (D0 : 0 <= q2r delta) by exact (order_delta _ _ _ _ WF OR).
  exists (C + C * K + K). split; [lra|]. intros W MD s0 hD h count t0D x0D x0 d A B MH TS [AP AB] Hh HH HT HX CT CW HD NX K1 K2 E E1 XB B0 RB RG RS.
  destruct (table_in_doubles (tabR co) stages A TS AB (sc_tab co stages SC)) as [TH SCD].
  pose proof (pos_INR count) as PC. pose proof (pow_le h p ltac:(lra)) as HP. assert (CW0 : 0 <= INR count * w) by (apply Rmult_le_pos; lra).
  set (G := 16 * (INR n * a * B) + 2) in *. assert (NB : 0 <= INR n * a * B) by (apply Rmult_le_pos; [apply Rmult_le_pos; [apply pos_INR|lra]|lra]). assert (G0 : 0 <= G) by (unfold G; lra).
  assert (R0 : 0 <= d + h ^ p + q2r delta + INR count * w) by lra.
  assert (EE : C * (d + h ^ p + q2r delta + K * w + INR count * w) <= E).
  { unfold E. set (r := d + h ^ p + q2r delta + INR count * w) in *. replace (d + h ^ p + q2r delta + (INR count + 1) * w) with (r + w) by (unfold r; ring). replace (d + h ^ p + q2r delta + K * w + INR count * w) with (r + K * w) by (unfold r; ring).
    assert (0 <= C * w) by (apply Rmult_le_pos; lra). assert (0 <= C * K * r) by (apply Rmult_le_pos; lra). assert (0 <= K * (r + w)) by (apply Rmult_le_pos; lra). lra. }
  assert (KW : 0 <= K * w <= 1).
  { split; [apply Rmult_le_pos; lra|]. eapply Rle_trans; [|exact E1]. unfold E. set (r := d + h ^ p + q2r delta + INR count * w) in *. replace (d + h ^ p + q2r delta + (INR count + 1) * w) with (r + w) by (unfold r; ring).
    assert (0 <= (C + C * K) * (r + w)) by (apply Rmult_le_pos; lra). assert (0 <= K * r) by (apply Rmult_le_pos; lra). lra. }
  assert (CE : C * (INR count * w) <= E). { eapply Rle_trans; [|exact EE]. apply Rmult_le_compat_l; lra. }
  pose proof (linear_sizes stages n a A h B A0 AP B0 HN K1 K2) as LS. cbv zeta in LS. fold G in LS.
  destruct (linear_holds n MD M a (time_size A h (Rabs t0 + T + C * (INR count * w))) (state_size stages A G h B) A0) as [LZ LR].
  { unfold state_size, term_size. assert (0 <= Rabs h * A) by (apply Rmult_le_pos; [apply Rabs_pos|exact AP]). assert (0 <= INR stages * (2 * (G * (2 * (Rabs h * A) + / 2 ^ 53)) + / 2 ^ 53)). { apply Rmult_le_pos; [apply pos_INR|]. assert (0 <= G * (2 * (Rabs h * A) + / 2 ^ 53)) by (apply Rmult_le_pos; lra). lra. } lra. }
  { exact HN. } { exact MH. } { eapply Rle_trans; [exact LS|]. exact RG. }
  destruct (HC W (tabD (tabR co)) (linearD n MD) (linearF b64 n M) s0 hD h count t0D x0D x0 d (K * w) A B G TH SCD AP G0 KW LZ SZF AC Hh HH HT HX CT CW HD NX) as (s' & posts & t & x & Q1 & Q2 & Q3 & Q4 & Q5).
  - intros t Ht j Hj. eapply Rle_trans; [apply (XB t Ht j Hj)|]. fold w. lra.
  - exact B0.
  - exact RB.
  - eapply Rle_trans; [|exact RS]. unfold time_size. fold w. lra.
  - eapply rhs_holds_le; [apply Rle_refl|apply Rle_refl|exact LS|exact LR].
  - exists s', posts, t, x. split; [exact Q1|]. split; [exact Q2|]. split; [exact Q3|]. split.
    + eapply Rle_trans; [exact Q4|]. fold w. apply Rmult_le_compat_r; lra.
    + intros j Hj. eapply Rle_trans; [apply (Q5 j Hj)|]. exact EE.
Qed.
