(** IeeeFacts.v - operations on doubles that stay in range deliver the rounded exact result; one step and a run of the explicit Runge-Kutta solvers. *)
From Coq Require Import List Arith Bool ZArith Lia Reals Lra.
From Flocq Require Import Core IEEE754.BinarySingleNaN.
From Verif Require Import Base BaseFacts VecModel VOps RkModel RkSpec RkFacts StepSpec ConvSpec ConvFacts FpSpec FpFacts FpFacts4 IeeeSpec.
Import ListNotations.
Local Open Scope R_scope.
Notation b64 := binary64.
Notation Big := (2 ^ 1002).

Lemma big_bpow : Big = bpow radix2 1002.
Proof. rewrite bpow_powerRZ. change (IZR radix2) with 2. unfold powerRZ. reflexivity. Qed.
Lemma in_range z : Rabs z <= Big -> Rabs (b64 z) < bpow radix2 1024.
Proof.
  intros H. unfold binary64. apply Rle_lt_trans with (bpow radix2 1002); [|apply bpow_lt; lia].
  apply abs_round_le_generic; [apply FLT_exp_valid; reflexivity|apply valid_rnd_N| |rewrite <- big_bpow; exact H].
  apply generic_format_FLT_bpow; [reflexivity|lia].
Qed.
Lemma d_add x y a b : holds x a -> holds y b -> Rabs (a + b) <= Big -> holds (nadd DNum x y) (b64 (a + b)).
Proof.
  intros [F1 V1] [F2 V2] H. pose proof (Bplus_correct 53 1024 _ _ mode_NE x y F1 F2) as C. rewrite V1, V2 in C.
  change (round radix2 (SpecFloat.fexp 53 1024) (round_mode mode_NE) (a + b)) with (b64 (a + b)) in C.
  rewrite (Rlt_bool_true _ _ (in_range _ H)) in C. destruct C as (C1 & C2 & _). split; assumption.
Qed.
Lemma d_sub x y a b : holds x a -> holds y b -> Rabs (a - b) <= Big -> holds (nsub DNum x y) (b64 (a - b)).
Proof.
  intros [F1 V1] [F2 V2] H. pose proof (Bminus_correct 53 1024 _ _ mode_NE x y F1 F2) as C. rewrite V1, V2 in C.
  change (round radix2 (SpecFloat.fexp 53 1024) (round_mode mode_NE) (a - b)) with (b64 (a - b)) in C.
  rewrite (Rlt_bool_true _ _ (in_range _ H)) in C. destruct C as (C1 & C2 & _). split; assumption.
Qed.
Lemma d_mul x y a b : holds x a -> holds y b -> Rabs (a * b) <= Big -> holds (nmul DNum x y) (b64 (a * b)).
Proof.
  intros [F1 V1] [F2 V2] H. pose proof (Bmult_correct 53 1024 _ _ mode_NE x y) as C. rewrite V1, V2, F1, F2 in C.
  change (round radix2 (SpecFloat.fexp 53 1024) (round_mode mode_NE) (a * b)) with (b64 (a * b)) in C.
  rewrite (Rlt_bool_true _ _ (in_range _ H)) in C. destruct C as (C1 & C2 & _). split; assumption.
Qed.
Lemma d_zero : holds dzero 0.
Proof. split; reflexivity. Qed.
Lemma d_eqb x y a b : holds x a -> holds y b -> neqb DNum x y = neqb (FNum b64) a b.
Proof.
  intros [F1 V1] [F2 V2]. cbn [neqb DNum FNum]. rewrite (Beqb_correct _ _ x y F1 F2), V1, V2. unfold Reqb. destruct (Req_EM_T a b) as [E|E]; [apply Req_bool_true|apply Req_bool_false]; exact E.
Qed.

(** Sizes of rounded numbers. *)
Definition U := / 2 ^ 53.
Lemma u_small : 0 < U <= / 65536.
Proof. unfold U. change 53%nat with (16 + 37)%nat. rewrite pow_add. split; [apply Rinv_0_lt_compat; pose proof (pow_lt 2 16 ltac:(lra)); pose proof (pow_lt 2 37 ltac:(lra)); nra|]. apply Rinv_le_contravar; [lra|]. pose proof (pow_R1_Rle 2 37 ltac:(lra)). replace (2 ^ 16) with 65536 by lra. nra. Qed.
Lemma eta_small : 0 < / 2 ^ 1075 <= U.
Proof. split; [apply Rinv_0_lt_compat, pow_lt; lra|]. unfold U. apply Rinv_le_contravar; [apply pow_lt; lra|]. apply Rle_pow; [lra|lia]. Qed.
Lemma err z : Rabs (b64 z - z) <= U * Rabs z + U.
Proof. pose proof (proj2 binary64_rounds z) as H. pose proof eta_small. unfold U in *. lra. Qed.
Lemma size z a : Rabs z <= a -> Rabs (b64 z) <= 2 * a + 1.
Proof.
  intros H. pose proof (err z) as E. pose proof u_small as [U0 U1]. replace (b64 z) with ((b64 z - z) + z) by ring. eapply Rle_trans; [apply Rabs_triang|].
  pose proof (Rabs_pos z). assert (U * Rabs z <= / 65536 * Rabs z) by (apply Rmult_le_compat_r; lra). lra.
Qed.
Lemma err2 z : Rabs (b64 z - z) <= U * Rabs z + U * U.
Proof.
  pose proof (proj2 binary64_rounds z) as H. assert (E : / 2 ^ 1075 <= U * U). { unfold U. rewrite <- Rinv_mult. rewrite <- pow_add. apply Rinv_le_contravar; [apply pow_lt; lra|]. apply Rle_pow; [lra|lia]. }
  unfold U in *. lra.
Qed.
Lemma sizeU z a : Rabs z <= a -> Rabs (b64 z) <= 2 * a + U.
Proof.
  intros H. pose proof (err2 z) as E. pose proof u_small as [U0 U1]. replace (b64 z) with ((b64 z - z) + z) by ring. eapply Rle_trans; [apply Rabs_triang|].
  pose proof (Rabs_pos z). assert (U * Rabs z <= / 65536 * Rabs z) by (apply Rmult_le_compat_r; lra). assert (U * U <= U * / 65536) by (apply Rmult_le_compat_l; lra). lra.
Qed.
Lemma mulb x y a b : Rabs x <= a -> Rabs y <= b -> Rabs (x * y) <= a * b.
Proof. intros. rewrite Rabs_mult. apply Rmult_le_compat; try apply Rabs_pos; assumption. Qed.

Lemma hV_nth n x r j : holdsV n x r -> (j < n)%nat -> holds (nth j x dzero) (cmpR r j).
Proof. intros (_ & _ & H). apply H. Qed.

Section Step.
Context (coD : coeffs DNum) (co : coeffs (FNum b64)) (stages n nx : nat) (gD : double -> list double -> list double) (g : R -> list R -> list R) (hD : double) (h A B G S : R).
Hypothesis WF : wf_table co stages nx.
Hypothesis TH : table_holds A coD co.
Hypothesis HH : holds hD h.
Hypothesis A0 : 0 <= A.
Hypothesis B0 : 0 <= B.
Hypothesis G0 : 0 <= G.
Hypothesis S0 : 0 <= S.
Notation P := (term_size A G h).
Notation Bd := (state_size stages A G h B).
Notation Sd := (time_size A h S).
Hypothesis SB : INR stages <= 4096.
Hypothesis RB : Bd <= 2 ^ 1000.
Hypothesis RS : Sd <= 2 ^ 1000.
Hypothesis RH : rhs_holds n Sd Bd G gD g.

Lemma big4 : 2 ^ 1000 * 4 = Big.
Proof. change 1002%nat with (1000 + 2)%nat. rewrite pow_add. lra. Qed.
Lemma sizes : 0 <= Rabs h * A /\ U <= P /\ 0 <= INR stages * P /\ 1 <= 2 ^ 1000.
Proof.
  assert (H1 : 0 <= Rabs h * A) by (apply Rmult_le_pos; [apply Rabs_pos|exact A0]). split; [exact H1|].
  assert (H2 : U <= P). { unfold term_size. fold U. pose proof u_small. assert (0 <= G * (2 * (Rabs h * A) + U)) by (apply Rmult_le_pos; lra). lra. }
  split; [exact H2|]. split; [apply Rmult_le_pos; [apply pos_INR|pose proof u_small; lra]|]. apply pow_R1_Rle. lra.
Qed.
(** the sum of slopes, term after term *)
Lemma acc_holds (csD : list double) (cs : list R) k (ksD : list (list double)) (ks : list (list R)) p j count vD v :
  holdsV k csD cs -> (forall a, In a cs -> Rabs a <= A) -> (p + count <= k)%nat -> (count <= stages)%nat -> (j < n)%nat -> holds vD v -> Rabs v <= B ->
  (forall i, (i < count)%nat -> holdsV n (nth i ksD []) (nth i ks []) /\ bound n (nth i ks []) G) ->
  holds (acc_of (N:=DNum) csD p hD ksD j count vD) (acc_of (N:=FNum b64) cs p h ks j count v) /\
  Rabs (acc_of (N:=FNum b64) cs p h ks j count v) <= (B + INR count * P) * (1 + 4 * INR count * U).
Proof.
  intros HC HA. destruct sizes as (Z1 & Z2 & Z3 & Z4). pose proof u_small as [U0 U1]. pose proof big4 as BG.
  induction count as [|m I]; intros Hp Hs Hj Hv Bv Hk.
  - cbn [acc_of INR]. split; [exact Hv|]. lra.
  - destruct I as [I1 I2]; try assumption; try lia. { intros i Hi. apply Hk. lia. }
    cbn [acc_of]. set (wD := acc_of (N:=DNum) csD p hD ksD j m vD) in *. set (w := acc_of (N:=FNum b64) cs p h ks j m v) in *.
    pose proof (hV_nth k csD cs (p + m) HC ltac:(lia)) as Ha. change (cmpR cs (p + m)) with (nth (p + m) cs 0) in Ha.
    change (nT DNum) with double. change (n0 (FNum b64)) with 0. change (n0 DNum) with dzero. rewrite (d_eqb _ _ _ _ Ha d_zero). change (nT (FNum b64)) with R.
    rewrite S_INR. pose proof (pos_INR m) as PM. assert (MS : INR m + 1 <= INR stages) by (rewrite <- S_INR; apply le_INR; lia).
    assert (G1 : (B + INR m * P) * (1 + 4 * INR m * U) <= (B + (INR m + 1) * P) * (1 + 4 * (INR m + 1) * U)).
    { assert (0 <= INR m * P) by (apply Rmult_le_pos; lra). assert (0 <= INR m * U) by (apply Rmult_le_pos; lra). apply Rmult_le_compat; lra. }
    assert (MU : 4 * (INR m + 1) * U <= 1). { apply Rle_trans with (4 * 4096 * / 65536); [|lra]. apply Rmult_le_compat; lra. }
    destruct (neqb (FNum b64) (nth (p + m) cs 0) 0); [split; [exact I1|lra]|].
    assert (Aa : Rabs (nth (p + m) cs 0) <= A). { apply HA. apply nth_In. destruct HC as (_ & L & _). lia. }
    destruct (Hk m ltac:(lia)) as [K1 K2]. pose proof (hV_nth n _ _ j K1 Hj) as Kj. specialize (K2 j Hj). change (cmpR (nth m ks []) j) with (nth j (nth m ks []) 0) in Kj, K2.
    assert (Q1 : Rabs (h * nth (p + m) cs 0) <= Rabs h * A) by (apply mulb; [lra|exact Aa]).
    assert (PP : G * (2 * (Rabs h * A) + U) <= P) by (unfold term_size; fold U; assert (0 <= G * (2 * (Rabs h * A) + U)) by (apply Rmult_le_pos; lra); lra).
    assert (SP : P <= INR stages * P) by (replace P with (1 * P) at 1 by ring; apply Rmult_le_compat_r; lra).
    assert (HB : B + INR stages * P <= 2 ^ 1000) by (unfold state_size in RB; lra).
    assert (HHA : Rabs h * A <= 2 ^ 1000). { unfold time_size in RS. pose proof (Rabs_pos h). lra. }
    assert (D1 : holds (nmul DNum hD (nth (p + m) csD dzero)) (b64 (h * nth (p + m) cs 0))) by (apply d_mul; [exact HH|exact Ha|lra]).
    pose proof (sizeU _ _ Q1) as Q2. set (q := b64 (h * nth (p + m) cs 0)) in *. set (kv := nth j (nth m ks []) 0) in *.
    assert (Q3 : Rabs (kv * q) <= G * (2 * (Rabs h * A) + U)) by (apply mulb; assumption).
    assert (D2 : holds (nmul DNum (nth j (nth m ksD []) dzero) (nmul DNum hD (nth (p + m) csD dzero))) (b64 (kv * q))) by (apply d_mul; [exact Kj|exact D1|lra]).
    assert (Q4 : Rabs (b64 (kv * q)) <= P) by (eapply Rle_trans; [apply (sizeU _ _ Q3)|unfold term_size; fold U; lra]).
    assert (W1 : Rabs (w + b64 (kv * q)) <= (B + INR m * P) * (1 + 4 * INR m * U) + P) by (eapply Rle_trans; [apply Rabs_triang|lra]).
    set (N := B + INR m * P) in *. assert (N0 : 0 <= N) by (unfold N; assert (0 <= INR m * P) by (apply Rmult_le_pos; lra); lra).
    assert (NS : N + P <= 2 ^ 1000). { apply Rle_trans with (B + INR stages * P); [|exact HB]. unfold N. assert ((INR m + 1) * P <= INR stages * P) by (apply Rmult_le_compat_r; lra). lra. }
    assert (MU0 : 0 <= 4 * INR m * U) by (apply Rmult_le_pos; lra).
    assert (N3 : N * (1 + 4 * INR m * U) <= N * 3) by (apply Rmult_le_compat_l; [exact N0|lra]).
    split; [apply d_add; [exact I1|exact D2|eapply Rle_trans; [exact W1|]; rewrite <- BG; lra]|].
    change (Rabs (b64 (w + b64 (kv * q))) <= (B + (INR m + 1) * P) * (1 + 4 * (INR m + 1) * U)).
    set (z := w + b64 (kv * q)) in *. pose proof (err2 z) as E. replace (b64 z) with ((b64 z - z) + z) by ring. eapply Rle_trans; [apply Rabs_triang|].
    assert (U * Rabs z <= U * (N * (1 + 4 * INR m * U) + P)) by (apply Rmult_le_compat_l; lra).
    assert (U * N * (4 * INR m * U) <= U * N * 1) by (apply Rmult_le_compat_l; [apply Rmult_le_pos; lra|lra]).
    assert (0 <= U * P * INR m) by (apply Rmult_le_pos; [apply Rmult_le_pos; lra|lra]). assert (U * U <= U * P) by (apply Rmult_le_compat_l; lra). assert (0 <= U * U) by (apply Rmult_le_pos; lra). assert (0 <= U * N) by (apply Rmult_le_pos; lra).
    replace (B + (INR m + 1) * P) with (N + P) by (unfold N; ring). lra.
Qed.
Lemma acc_size m : (m <= stages)%nat -> (B + INR m * P) * (1 + 4 * INR m * U) <= Bd.
Proof.
  intros Hm. destruct sizes as (Z1 & Z2 & Z3 & Z4). pose proof u_small as [U0 U1]. pose proof (pos_INR m). assert (INR m <= INR stages) by (apply le_INR; exact Hm).
  assert (INR m * P <= INR stages * P) by (apply Rmult_le_compat_r; lra). assert (4 * INR m * U <= 1). { apply Rle_trans with (4 * 4096 * / 65536); [|lra]. apply Rmult_le_compat; lra. }
  assert (0 <= INR m * P) by (apply Rmult_le_pos; lra). unfold state_size. rewrite (Rmult_comm 2). apply Rmult_le_compat; try lra. assert (0 <= INR m * U) by (apply Rmult_le_pos; lra). lra.
Qed.
Context (xD : list double) (x : list R) (tD : double) (t : R).
Hypothesis HX : holdsV n xD x.
Hypothesis BX : bound n x B.
Hypothesis HT : holds tD t.
Hypothesis BT : Rabs t <= S.
Context (evD : list (double * list double)) (kD : list (list double)) (ev : list (R * list R)) (k : list (list R)).
Hypothesis SD : stagesN (N:=DNum) coD stages n (fun t x => Ret (gD t x)) xD tD hD evD kD.
Hypothesis SF : stagesN (N:=FNum b64) co stages n (fun t x => Ret (g t x)) x t h ev k.
Lemma in_a a : In a (co_a co) -> Rabs (a : R) <= A. Proof. intros H. apply TH. left. exact H. Qed.
Lemma in_b a : In a (co_b co) -> Rabs (a : R) <= A. Proof. intros H. apply TH. right. left. exact H. Qed.
Lemma in_c a : In a (co_c co) -> Rabs (a : R) <= A. Proof. intros H. apply TH. right. right. exact H. Qed.
Lemma slopes_hold s : (s < stages)%nat -> holdsV n (nth s kD []) (nth s k []) /\ bound n (nth s k []) G.
Proof.
  destruct SD as (_ & _ & SDs). destruct SF as (_ & _ & SFs). destruct sizes as (Z1 & Z2 & Z3 & Z4). pose proof big4 as BG.
  destruct WF as (W1 & LA & LB & LC). destruct TH as ((ka & Ta) & _ & (kc & Tc) & _ & _). assert (EKA : ka = length (co_a co)) by (symmetry; apply Ta). assert (EKC : kc = length (co_c co)) by (symmetry; apply Tc).
  change (nT (FNum b64)) with R in *. change (nT DNum) with double in *.
  induction s as [s I] using lt_wf_ind. intros Hs.
  destruct (SDs s Hs) as (t1 & a1 & _ & F1 & L1 & M1 & T1 & C1). destruct (SFs s Hs) as (t2 & a2 & _ & F2 & L2 & M2 & T2 & C2).
  change (n0 DNum) with dzero in C1. change (n0 (FNum b64)) with 0 in C2. injection F1 as F1. injection F2 as F2. rewrite <- F1, <- F2. apply RH.
  - rewrite T1, T2. destruct s as [|q]; [exact HT|].
    assert (Hq : (q < kc)%nat) by lia. pose proof (hV_nth kc _ _ q Tc Hq) as Hc. assert (Ac : Rabs (cmpR (co_c co) q) <= A) by (apply in_c; apply nth_In; lia).
    assert (Q1 : Rabs (h * cmpR (co_c co) q) <= Rabs h * A) by (apply mulb; [lra|exact Ac]). unfold time_size in RS. pose proof (Rabs_pos h).
    apply d_add; [exact HT|apply d_mul; [exact HH|exact Hc|eapply Rle_trans; [exact Q1|]; rewrite <- BG; lra]|]. eapply Rle_trans; [apply Rabs_triang|]. pose proof (size _ _ Q1). change (Rabs t + Rabs (b64 (h * cmpR (co_c co) q)) <= Big). rewrite <- BG. lra.
  - split; [exact L1|]. split; [exact L2|]. intros j Hj. unfold cmpR. rewrite (C1 j Hj), (C2 j Hj).
    eapply (acc_holds _ _ ka); [exact Ta|exact in_a| |lia|exact Hj|apply hV_nth with n; [exact HX|exact Hj]|apply BX; exact Hj|].
    + pose proof (tri_mono (Datatypes.S s) stages Hs) as TM. rewrite tri_S in TM. lia.
    + intros i Hi. apply I; lia.
  - rewrite T2. unfold time_size. pose proof (Rabs_pos h). destruct s as [|q]; [lra|].
    assert (Ac : Rabs (cmpR (co_c co) q) <= A) by (apply in_c; apply nth_In; change (nT (FNum b64)) with R in *; lia).
    assert (Q1 : Rabs (h * cmpR (co_c co) q) <= Rabs h * A) by (apply mulb; [lra|exact Ac]). pose proof (size _ _ Q1) as Q2.
    eapply Rle_trans; [apply (size _ (Rabs t + (2 * (Rabs h * A) + 1)))|lra]. eapply Rle_trans; [apply Rabs_triang|]. apply Rplus_le_compat_l. exact Q2.
  - intros j Hj. unfold cmpR. change (nT (FNum b64)) with R in *. rewrite (C2 j Hj). eapply Rle_trans; [|apply (acc_size s); lia].
    eapply (acc_holds _ _ ka); [exact Ta|exact in_a| |lia|exact Hj|apply hV_nth with n; [exact HX|exact Hj]|apply BX; exact Hj|].
    + pose proof (tri_mono (Datatypes.S s) stages Hs) as TM. rewrite tri_S in TM. lia.
    + intros i Hi. apply I; lia.
Qed.
Lemma result_holds ix x2D x2 : (ix < nx)%nat -> resultN (N:=DNum) coD stages n ix xD hD kD x2D -> resultN (N:=FNum b64) co stages n ix x h k x2 -> holdsV n x2D x2.
Proof.
  intros IX (L1 & C1) (L2 & C2). destruct WF as (W1 & LA & LB & LC). destruct TH as (_ & (kb & Tb) & _ & _ & _). assert (EKB : kb = length (co_b co)) by (symmetry; apply Tb).
  change (nT (FNum b64)) with R in *. change (nT DNum) with double in *.
  split; [exact L1|]. split; [exact L2|]. intros j Hj. unfold cmpR. change (n0 DNum) with dzero in C1. change (n0 (FNum b64)) with 0 in C2. rewrite (C1 j Hj), (C2 j Hj).
  eapply (acc_holds _ _ kb); [exact Tb|exact in_b|nia|lia|exact Hj|apply hV_nth with n; [exact HX|exact Hj]|apply BX; exact Hj|]. intros i Hi. apply slopes_hold. exact Hi.
Qed.
End Step.
