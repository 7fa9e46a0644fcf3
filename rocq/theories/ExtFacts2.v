(** ExtFacts2.v - step sequences; the extrapolation solver. *)
From Coq Require Import List Arith Lia Bool ZArith QArith Qcanon.
From Verif Require Import Base BaseFacts VecModel VOps NewtFacts RkModel RkSpec RkFacts RkFacts2 RkFacts3 StepModel StepSpec StepFacts2 ExtModel ExtSpec ExtFacts.
Import ListNotations.
Local Open Scope nat_scope.

(** * Sequences *)
Lemma toint_ok z : (z <= int_max)%Z -> toint z = Ret z.
Proof. intros H. unfold toint. destruct (Z.leb_spec z int_max); [reflexivity|lia]. Qed.
Lemma take_from {Q} (sq : stepseq Q) (st : nat -> Q) (val : nat -> Z) lim : (forall k, k < lim -> sq_next sq (st k) = Ret (val k, st (S k))) ->
  forall count k, k + count <= lim -> sq_take sq count (st k) = Ret (map val (seq k count), st (k + count)).
Proof.
  intros H. induction count as [|c I]; intros k L; cbn [sq_take seq map]; [rewrite Nat.add_0_r; reflexivity|].
  rewrite H by lia. cbn [obind snd fst]. rewrite I by lia. cbn [obind fst snd]. replace (k + S c) with (S k + c) by lia. reflexivity.
Qed.
Lemma harmonic_take q count : (Z.of_nat count < int_max)%Z -> exists q', sq_take harmonic count (sq_reset harmonic q) = Ret (map seq_harmonic (seq 0 count), q').
Proof.
  intros H. exists (Z.of_nat count + 1)%Z.
  apply (take_from harmonic (fun k => Z.of_nat k + 1)%Z seq_harmonic count) with (k := 0); [|lia].
  intros k K. cbn [sq_next harmonic]. rewrite toint_ok by lia. cbn [obind]. unfold seq_harmonic. do 2 f_equal. lia.
Qed.
Lemma pow2_S k : pow2 (S k) = (2 * pow2 k)%Z.
Proof. unfold pow2. rewrite Nat2Z.inj_succ, Z.pow_succ_r by lia. reflexivity. Qed.
Lemma pow2_pos k : (0 < pow2 k)%Z.
Proof. apply Z.pow_pos_nonneg; lia. Qed.
Lemma pow2_mono a b : a <= b -> (pow2 a <= pow2 b)%Z.
Proof. intros H. apply Z.pow_le_mono_r; lia. Qed.
Lemma pow2_lt a b : a < b -> (pow2 a < pow2 b)%Z.
Proof. intros H. apply Z.pow_lt_mono_r; lia. Qed.
Lemma pow2_30 : pow2 30 = 1073741824%Z. Proof. reflexivity. Qed.
Lemma pow2_29 : pow2 29 = 536870912%Z. Proof. reflexivity. Qed.
Lemma romberg_take q count : count <= 30 -> exists q', sq_take romberg count (sq_reset romberg q) = Ret (map seq_romberg (seq 0 count), q').
Proof.
  intros H. exists (pow2 count).
  apply (take_from romberg pow2 seq_romberg count) with (k := 0); [|lia].
  intros k K. cbn [sq_next romberg]. rewrite <- pow2_S. rewrite toint_ok; [reflexivity|].
  pose proof (pow2_mono (S k) 30 ltac:(lia)) as M. rewrite pow2_30 in M. unfold int_max. lia.
Qed.
Definition bst (k : nat) : bul := mkBul (Z.of_nat k) (if k <? 2 then 1%Z else (3 * pow2 (k / 2 - 1))%Z) (pow2 (k / 2 + 1)).
Lemma half_even i : (2 * i) / 2 = i. Proof. rewrite Nat.mul_comm. apply Nat.div_mul. lia. Qed.
Lemma half_odd i : (2 * i + 1) / 2 = i. Proof. rewrite (Nat.mul_comm 2 i), Nat.div_add_l by lia. cbn. lia. Qed.
Lemma even_odd k : (exists i, k = 2 * i) \/ (exists i, k = 2 * i + 1).
Proof. destruct (Nat.Even_or_Odd k) as [(i & E)|(i & E)]; [left|right]; exists i; lia. Qed.
Lemma odd_2i i : Nat.odd (2 * i) = false. Proof. rewrite Nat.odd_mul. reflexivity. Qed.
Lemma odd_2i1 i : Nat.odd (2 * i + 1) = true. Proof. rewrite Nat.add_1_r, Nat.odd_succ, Nat.even_mul. reflexivity. Qed.
Lemma bul_next k : k < 59 -> sq_next bulirsch (bst k) = Ret (seq_bulirsch k, bst (S k)).
Proof.
  intros K. cbn [sq_next bulirsch]. unfold bst at 1. cbn [b_ord]. rewrite toint_ok by (unfold int_max; lia). cbn [obind].
  destruct (even_odd k) as [(i & ->)|(i & ->)].
  - assert (O : Z.odd (Z.of_nat (2 * i) + 1) = true) by (replace (Z.of_nat (2 * i) + 1)%Z with (1 + 2 * Z.of_nat i)%Z by lia; rewrite Z.odd_add_mul_2; reflexivity). rewrite O.
    unfold bst, seq_bulirsch. cbn [b_odd b_even]. rewrite half_even, odd_2i. replace (S (2 * i)) with (2 * i + 1) by lia. rewrite half_odd.
    destruct i as [|i]; [reflexivity|].
    destruct (Nat.ltb_spec (2 * S i) 2); [lia|]. destruct (Nat.ltb_spec (2 * S i + 1) 2); [lia|]. destruct (Nat.eqb_spec (2 * S i) 0); [lia|]. do 3 f_equal. lia.
  - assert (O : Z.odd (Z.of_nat (2 * i + 1) + 1) = false) by (replace (Z.of_nat (2 * i + 1) + 1)%Z with (0 + 2 * (Z.of_nat i + 1))%Z by lia; rewrite Z.odd_add_mul_2; reflexivity). rewrite O.
    assert (E : (if (Z.of_nat (2 * i + 1) + 1 =? 2)%Z then Ret 3%Z else toint (2 * b_odd (bst (2 * i + 1)))) = Ret (3 * pow2 i)%Z).
    { unfold bst. cbn [b_odd]. rewrite half_odd. destruct i as [|i]; [reflexivity|]. destruct (Z.eqb_spec (Z.of_nat (2 * S i + 1) + 1) 2); [lia|]. destruct (Nat.ltb_spec (2 * S i + 1) 2); [lia|].
      replace (S i - 1) with i by lia. replace (2 * (3 * pow2 i))%Z with (3 * pow2 (S i))%Z by (rewrite pow2_S; ring). apply toint_ok.
      pose proof (pow2_mono (S i) 29 ltac:(lia)) as M. rewrite pow2_29 in M. unfold int_max. lia. }
    rewrite E. cbn [obind]. unfold bst at 1. cbn [b_even]. rewrite half_odd. rewrite toint_ok.
    2: { rewrite <- pow2_S. pose proof (pow2_mono (S (i + 1)) 30 ltac:(lia)) as M. rewrite pow2_30 in M. unfold int_max. lia. }
    cbn [obind]. unfold bst, seq_bulirsch. cbn [b_even]. rewrite odd_2i1, half_odd. destruct (Nat.eqb_spec (2 * i + 1) 0); [lia|].
    replace (2 * i + 1 + 1) with (2 * (i + 1)) by lia. replace (S (2 * i + 1)) with (2 * (i + 1)) by lia. rewrite half_even.
    destruct (Nat.ltb_spec (2 * (i + 1)) 2); [lia|]. replace (i + 1 - 1) with i by lia. rewrite <- pow2_S. replace (S (i + 1)) with (i + 1 + 1) by lia. do 3 f_equal. lia.
Qed.
Lemma bulirsch_take q count : count <= 59 -> exists q', sq_take bulirsch count (sq_reset bulirsch q) = Ret (map seq_bulirsch (seq 0 count), q').
Proof.
  intros H. exists (bst count). apply (take_from bulirsch bst seq_bulirsch count) with (k := 0); [|lia]. intros k K. apply bul_next. lia.
Qed.
Lemma harmonic_inc a b : a < b -> (seq_harmonic a < seq_harmonic b)%Z. Proof. unfold seq_harmonic. lia. Qed.
Lemma romberg_inc a b : a < b -> (seq_romberg a < seq_romberg b)%Z. Proof. apply pow2_lt. Qed.
Lemma bulirsch_succ k : (seq_bulirsch k < seq_bulirsch (S k))%Z.
Proof.
  destruct (even_odd k) as [(i & ->)|(i & ->)]; unfold seq_bulirsch.
  - replace (S (2 * i)) with (2 * i + 1) by lia. rewrite odd_2i, odd_2i1, half_even. replace (2 * i + 1 + 1) with (2 * (i + 1)) by lia. rewrite half_even. destruct (Nat.eqb_spec (2 * i + 1) 0); [lia|].
    destruct i as [|i]; [cbn; lia|]. destruct (Nat.eqb_spec (2 * S i) 0); [lia|]. replace (S i - 1) with i by lia. replace (S i + 1) with (S (S i)) by lia. rewrite !pow2_S. pose proof (pow2_pos i). lia.
  - replace (S (2 * i + 1)) with (2 * (i + 1)) by lia. rewrite odd_2i, odd_2i1. replace (2 * i + 1 + 1) with (2 * (i + 1)) by lia. rewrite half_even. destruct (Nat.eqb_spec (2 * i + 1) 0); [lia|]. destruct (Nat.eqb_spec (2 * (i + 1)) 0); [lia|].
    replace (i + 1) with (S i) by lia. replace (S i - 1) with i by lia. rewrite !pow2_S. pose proof (pow2_pos i). lia.
Qed.
Lemma bulirsch_inc a b : a < b -> (seq_bulirsch a < seq_bulirsch b)%Z.
Proof. intros H. induction b as [|b I]; [lia|]. pose proof (bulirsch_succ b). destruct (Nat.eq_dec a b) as [->|]; [assumption|]. specialize (I ltac:(lia)). lia. Qed.
Lemma inc_ge (f : nat -> Z) : (forall a b, a < b -> (f a < f b)%Z) -> f 0 = 1%Z -> forall k, (Z.of_nat k + 1 <= f k)%Z.
Proof. intros H H0. induction k as [|k I]; [rewrite H0; lia|]. specialize (H k (S k) ltac:(lia)). lia. Qed.
Lemma inc_seq (f : nat -> Z) m : (forall a b, a < b -> (f a < f b)%Z) -> f 0 = 1%Z -> 0 < m -> increasing (map Z.to_nat (map f (seq 0 m))) m.
Proof.
  intros H H0 M. pose proof (inc_ge f H H0) as G. split; [rewrite !map_length, seq_length; reflexivity|].
  assert (N : forall i, i < m -> nth i (map Z.to_nat (map f (seq 0 m))) 0 = Z.to_nat (f i)).
  { intros i I. rewrite (nth_indep _ 0 (Z.to_nat (f 0))) by (rewrite !map_length, seq_length; exact I). rewrite (map_nth Z.to_nat), (map_nth f), seq_nth by exact I. reflexivity. }
  split; [rewrite N by lia; rewrite H0; cbn; lia|]. intros i j I J. rewrite !N by lia. pose proof (G i). specialize (H i j I). lia.
Qed.
Lemma seqs_ok m : 0 < m -> ((Z.of_nat m < int_max)%Z -> seq_ok harmonic m) /\ (m <= 30 -> seq_ok romberg m) /\ (m <= 59 -> seq_ok bulirsch m).
Proof.
  intros M. split; [|split].
  - intros H q. destruct (harmonic_take q m H) as (q' & E). exists (map seq_harmonic (seq 0 m)), q'. split; [exact E|apply inc_seq; [exact harmonic_inc|reflexivity|exact M]].
  - intros H q. destruct (romberg_take q m H) as (q' & E). exists (map seq_romberg (seq 0 m)), q'. split; [exact E|apply inc_seq; [exact romberg_inc|reflexivity|exact M]].
  - intros H q. destruct (bulirsch_take q m H) as (q' & E). exists (map seq_bulirsch (seq 0 m)), q'. split; [exact E|apply inc_seq; [exact bulirsch_inc|reflexivity|exact M]].
Qed.
