(** IeeeFacts3.v - linear right-hand sides in doubles. *)
From Coq Require Import List Arith Bool ZArith Lia Reals Lra.
From Flocq Require Import Core IEEE754.BinarySingleNaN.
From Verif Require Import Base BaseFacts VecModel VOps RkModel RkSpec ConvSpec FpSpec FpFacts4 IeeeSpec IeeeFacts.
Import ListNotations.
Local Open Scope R_scope.
Notation b64 := binary64.

Lemma dot_holds a b (aD xD : nat -> double) (av xv : nat -> R) : 0 <= a -> 0 <= b -> forall count,
  (forall j, (j < count)%nat -> holds (aD j) (av j) /\ holds (xD j) (xv j) /\ Rabs (av j) <= a /\ Rabs (xv j) <= b) -> INR count <= 4096 -> 2 * (INR count * (2 * (a * b) + U)) <= 2 ^ 1000 ->
  holds (dotD count aD xD) (dotF b64 count av xv) /\ Rabs (dotF b64 count av xv) <= INR count * (2 * (a * b) + U) * (1 + 4 * INR count * U).
Proof.
  intros Ha Hb. pose proof u_small as [U0 U1]. pose proof big4 as BG. assert (AB : 0 <= a * b) by (apply Rmult_le_pos; assumption). set (P := 2 * (a * b) + U).
  assert (Z2 : U <= P) by (unfold P; lra). induction count as [|m I]; intros H HC HS.
  - split; [apply d_zero|]. cbn [dotF INR]. rewrite Rabs_R0. lra.
  - rewrite S_INR in *. pose proof (pos_INR m) as PM. set (N := INR m * P) in *. assert (N0 : 0 <= N) by (apply Rmult_le_pos; lra).
    assert (NE : (INR m + 1) * P = N + P) by (unfold N; ring). rewrite NE in *.
    destruct I as [I1 I2]; [intros j Hj; apply H; lia|lra|lra|]. destruct (H m ltac:(lia)) as (A1 & X1 & A2 & X2). cbn [dotD dotF].
    pose proof (mulb _ _ _ _ A2 X2) as Q3. set (q := av m * xv m) in *. set (w := dotF b64 m av xv) in *.
    assert (D2 : holds (nmul DNum (aD m) (xD m)) (b64 q)) by (apply d_mul; [exact A1|exact X1|fold q; eapply Rle_trans; [exact Q3|]; rewrite <- BG; unfold P in HS; lra]).
    pose proof (sizeU _ _ Q3) as Q4. fold P in Q4. assert (W1 : Rabs (w + b64 q) <= N * (1 + 4 * INR m * U) + P) by (eapply Rle_trans; [apply Rabs_triang|lra]).
    assert (MU : 4 * (INR m + 1) * U <= 1). { apply Rle_trans with (4 * 4096 * / 65536); [|lra]. apply Rmult_le_compat; lra. }
    assert (MU0 : 0 <= 4 * INR m * U) by (apply Rmult_le_pos; lra).
    assert (N3 : N * (1 + 4 * INR m * U) <= N * 2) by (apply Rmult_le_compat_l; [exact N0|lra]).
    split; [apply d_add; [exact I1|exact D2|eapply Rle_trans; [exact W1|]; rewrite <- BG; lra]|].
    set (z := w + b64 q) in *. pose proof (err2 z) as E. replace (b64 z) with ((b64 z - z) + z) by ring. eapply Rle_trans; [apply Rabs_triang|].
    assert (U * Rabs z <= U * (N * (1 + 4 * INR m * U) + P)) by (apply Rmult_le_compat_l; lra).
    assert (U * N * (4 * INR m * U) <= U * N * 1) by (apply Rmult_le_compat_l; [apply Rmult_le_pos; lra|lra]).
    assert (0 <= U * P * INR m) by (apply Rmult_le_pos; [apply Rmult_le_pos; lra|lra]). assert (U * U <= U * P) by (apply Rmult_le_compat_l; lra). assert (0 <= U * U) by (apply Rmult_le_pos; lra). assert (0 <= U * N) by (apply Rmult_le_pos; lra).
    lra.
Qed.
Lemma linear_holds n MD M a S B : 0 <= a -> 0 <= B -> INR n <= 4096 -> (forall i j, (i < n)%nat -> (j < n)%nat -> holds (MD i j) (M i j) /\ Rabs (M i j) <= a) ->
  2 * (INR n * (2 * (a * B) + / 2 ^ 53)) <= 2 ^ 1000 -> sizedD n (linearD n MD) /\ rhs_holds n S B (2 * (INR n * (2 * (a * B) + / 2 ^ 53))) (linearD n MD) (linearF b64 n M).
Proof.
  change (/ 2 ^ 53) with U.
  intros Ha HB HN HM HS. pose proof u_small as [U0 U1]. split.
  - intros t x _. unfold linearD. rewrite map_length, seq_length. reflexivity.
  - intros tD xD t x _ HX _ BX.
    assert (D : forall i, (i < n)%nat -> holds (dotD n (MD i) (fun j => nth j xD dzero)) (dotF b64 n (M i) (cmpR x)) /\ Rabs (dotF b64 n (M i) (cmpR x)) <= INR n * (2 * (a * B) + U) * (1 + 4 * INR n * U)).
    { intros i Hi. apply dot_holds; try assumption. intros j Hj. destruct (HM i j Hi Hj) as [M1 M2]. split; [exact M1|]. split; [apply HX; exact Hj|]. split; [exact M2|]. apply BX. exact Hj. }
    assert (NL : forall i, (i < n)%nat -> cmpR (linearF b64 n M t x) i = dotF b64 n (M i) (cmpR x)).
    { intros i Hi. unfold cmpR at 1, linearF. rewrite (nth_indep _ 0 (dotF b64 n (M 0%nat) (cmpR x))) by (rewrite map_length, seq_length; exact Hi).
      rewrite (map_nth (fun i => dotF b64 n (M i) (cmpR x))). rewrite seq_nth by exact Hi. reflexivity. }
    split.
    + split; [unfold linearD; rewrite map_length, seq_length; reflexivity|]. split; [unfold linearF; rewrite map_length, seq_length; reflexivity|].
      intros j Hj. rewrite NL by exact Hj. unfold linearD. rewrite (nth_indep _ dzero (dotD n (MD 0%nat) (fun j => nth j xD dzero))) by (rewrite map_length, seq_length; exact Hj).
      rewrite (map_nth (fun i => dotD n (MD i) (fun j => nth j xD dzero))). rewrite seq_nth by exact Hj. apply D. exact Hj.
    + intros j Hj. rewrite NL by exact Hj. eapply Rle_trans; [apply D; exact Hj|]. pose proof (pos_INR n) as PN. assert (0 <= a * B) by (apply Rmult_le_pos; assumption).
      assert (4 * INR n * U <= 1). { apply Rle_trans with (4 * 4096 * / 65536); [|lra]. apply Rmult_le_compat; lra. }
      assert (0 <= INR n * (2 * (a * B) + U)) by (apply Rmult_le_pos; lra). assert (0 <= 4 * INR n * U) by (apply Rmult_le_pos; lra).
      set (z := INR n * (2 * (a * B) + U)) in *. replace (2 * z) with (z * 2) by ring. apply Rmult_le_compat_l; lra.
Qed.
