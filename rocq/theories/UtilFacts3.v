(** UtilFacts3.v - proofs for C50. *)
From Coq Require Import List Arith Bool ZArith Lia String Ascii NArith.
From Verif Require Import Base BaseFacts LexModel LexSpec ParModel ParSpec LexFacts ParFacts UtilModel UtilSpec.
Import ListNotations.
Local Open Scope Z_scope.

(** numerals of equal length compare like strings *)
Definition dig (c : ascii) : Z := Z.of_N (N_of_ascii c) - 48.
Definition dstep (a : Z) (c : ascii) : Z := 10 * a + (Z.of_N (N_of_ascii c) - 48).
Lemma fold_dig s : forall acc, fold_left dstep (chars s) acc = acc * 10 ^ Z.of_nat (String.length s) + fold_left dstep (chars s) 0.
Proof.
  induction s as [|c s IH]; intros acc.
  - cbn [String.length chars list_ascii_of_string fold_left]. change (10 ^ Z.of_nat 0) with 1. ring.
  - change (chars (String c s)) with (c :: chars s). cbn [fold_left String.length]. rewrite (IH (dstep acc c)), (IH (dstep 0 c)). rewrite Nat2Z.inj_succ, Z.pow_succ_r by lia. unfold dstep at 1 3. ring.
Qed.
Lemma numeral_cons c s : numeral (String c s) = dig c * 10 ^ Z.of_nat (String.length s) + numeral s.
Proof. unfold numeral. change (chars (String c s)) with (c :: chars s). fold dstep. cbn [fold_left]. rewrite fold_dig. unfold dstep at 1, dig. ring. Qed.
Lemma dig_range c : digit c = true -> 0 <= dig c <= 9.
Proof. unfold digit, dig. destruct c as [[] [] [] [] [] [] [] []]; vm_compute; intros H; try discriminate H; split; discriminate. Qed.
Lemma digits_inv c s : is_digits (String c s) -> digit c = true /\ is_digits s.
Proof. intros H. split; [apply digit_class; apply H; left; reflexivity|intros d D; apply H; right; exact D]. Qed.
Lemma numeral_bound s : is_digits s -> 0 <= numeral s < 10 ^ Z.of_nat (String.length s).
Proof.
  induction s as [|c s IH]; intros H; [cbn; lia|]. apply digits_inv in H as [C S]. apply dig_range in C. specialize (IH S). rewrite numeral_cons. cbn [String.length]. rewrite Nat2Z.inj_succ, Z.pow_succ_r by lia. nia.
Qed.
Lemma ascii_dig c d : Ascii.compare c d = Z.compare (dig c) (dig d).
Proof. unfold Ascii.compare, dig. rewrite <- N2Z.inj_compare. rewrite <- (Zcompare_plus_compat (Z.of_N (N_of_ascii c)) (Z.of_N (N_of_ascii d)) (-48)). f_equal; lia. Qed.
Lemma compare_numeral s : forall t, is_digits s -> is_digits t -> String.length s = String.length t -> String.compare s t = Z.compare (numeral s) (numeral t).
Proof.
  induction s as [|c s IH]; intros [|d t] S T L; try discriminate L; [reflexivity|]. injection L as L.
  apply digits_inv in S as [C S]. apply digits_inv in T as [D T]. apply dig_range in C, D. pose proof (numeral_bound s S) as BS. pose proof (numeral_bound t T) as BT. rewrite <- L in BT.
  cbn [String.compare]. rewrite ascii_dig, !numeral_cons, <- L. set (p := 10 ^ Z.of_nat (String.length s)) in *.
  destruct (Z.compare_spec (dig c) (dig d)) as [E|E|E].
  - rewrite E, (IH t S T L). rewrite Zcompare_plus_compat. reflexivity.
  - symmetry. apply Z.compare_lt_iff. nia.
  - symmetry. apply Z.compare_gt_iff. nia.
Qed.
Lemma length_app a b : String.length (a ++ b) = (String.length a + String.length b)%nat.
Proof. induction a; cbn; congruence. Qed.
Lemma compare_prefix p s t : String.compare (p ++ s) (p ++ t) = String.compare s t.
Proof. induction p as [|c p IH]; [reflexivity|]. cbn [append String.compare]. rewrite ascii_dig, Z.compare_refl. exact IH. Qed.

(** padding *)
Lemma zeros_len k : String.length (zeros k) = k. Proof. induction k; cbn; congruence. Qed.
Lemma zeros_digits k s : is_digits s -> is_digits (zeros k ++ s).
Proof. intros H. induction k as [|k IH]; [exact H|]. cbn. intros d [<-|D]; [apply digit_class; reflexivity|exact (IH d D)]. Qed.
Lemma zeros_numeral k s : numeral (zeros k ++ s) = numeral s.
Proof. induction k as [|k IH]; [reflexivity|]. cbn [zeros append]. rewrite numeral_cons, IH. unfold dig. cbn. lia. Qed.

(** lengths *)
Definition has_digits (n L : Z) : Prop := 1 <= L /\ n < 10 ^ L /\ (n = 0 /\ L = 1 \/ 10 ^ (L - 1) <= n).
Lemma has_unique n L L' : has_digits n L -> has_digits n L' -> L = L'.
Proof.
  assert (W : forall a b, has_digits n a -> has_digits n b -> a <= b).
  { intros a b (A1 & A2 & A3) (B1 & B2 & B3). destruct A3 as [[-> ->]|A3]; [lia|]. destruct (Z.le_gt_cases a b) as [G|G]; [exact G|]. exfalso.
    assert (10 ^ b <= 10 ^ (a - 1)) by (apply Z.pow_le_mono_r; lia). lia. }
  intros A B. apply Z.le_antisymm; apply W; assumption.
Qed.
Lemma has_div n L : 10 <= n -> has_digits (n / 10) L -> has_digits n (L + 1).
Proof.
  intros N (A & B & C). pose proof (Z.div_mod n 10 ltac:(lia)) as D. pose proof (Z.mod_pos_bound n 10 ltac:(lia)) as M. split; [lia|]. split; [rewrite Z.pow_add_r by lia; lia|]. right.
  replace (L + 1 - 1) with (Z.succ (L - 1)) by lia. rewrite Z.pow_succ_r by lia. destruct C as [[C ->]|C]; [|lia]. exfalso. assert (n < 10) by lia. lia.
Qed.
Lemma dec_len fuel : forall n s, (n < 2 ^ N.of_nat fuel)%N -> (fuel > 0)%nat -> exists L, has_digits (Z.of_N n) L /\ Z.of_nat (String.length (dec fuel n s)) = L + Z.of_nat (String.length s).
Proof.
  induction fuel as [|f IH]; intros n s H HF; [lia|]. cbn [dec]. destruct (N.ltb_spec n 10).
  - exists 1. split; [|cbn [String.length]; lia]. split; [lia|]. split; [cbn; lia|]. destruct (N.eq_dec n 0) as [->|NZ]; [left; split; reflexivity|right; cbn; lia].
  - assert (F0 : (f > 0)%nat). { destruct f; [|lia]. change (N.of_nat 1) with 1%N in H. change (2 ^ 1)%N with 2%N in H. lia. }
    destruct (IH (n / 10)%N (String (digit_char (n mod 10)) s)) as (L & A & B); [|exact F0|].
    + apply N.div_lt_upper_bound; [lia|]. rewrite Nnat.Nat2N.inj_succ, N.pow_succ_r' in H. lia.
    + exists (L + 1). split; [apply has_div; [lia|]; rewrite N2Z.inj_div in A; exact A|]. rewrite B. cbn [String.length]. lia.
Qed.
Lemma to_string_len n : has_digits (Z.of_N n) (Z.of_nat (String.length (to_string_N n))).
Proof. unfold to_string_N. destruct (dec_len (S (N.to_nat (N.log2 n))) n "") as (L & A & B); [apply log2_bound|lia|]. rewrite B. cbn [String.length]. rewrite Z.add_0_r. exact A. Qed.
Lemma log10_ok fuel : forall k n, 0 <= k -> 10 ^ k <= n \/ n = 0 /\ k = 0 -> n < 10 ^ k * 2 ^ Z.of_nat fuel -> 0 <= n -> has_digits n (1 + log10_from fuel k (10 ^ k) n) /\ 0 <= log10_from fuel k (10 ^ k) n.
Proof.
  induction fuel as [|f IH]; intros k n K LO HI NN.
  - cbn [log10_from]. change (2 ^ Z.of_nat 0) with 1 in HI. split; [|exact K]. destruct LO as [LO|[-> ->]]; [lia|]. split; [lia|]. split; [reflexivity|left; split; reflexivity].
  - cbn [log10_from]. destruct (Z.leb_spec (2 * (10 * 10 ^ k)) (2 * n + 1)) as [G|G].
    + replace (10 * 10 ^ k) with (10 ^ (k + 1)) by (rewrite Z.pow_add_r by lia; lia). apply IH; try lia.
      * left. rewrite Z.pow_add_r by lia. lia.
      * rewrite Nat2Z.inj_succ, Z.pow_succ_r in HI by lia. rewrite Z.pow_add_r by lia. change (10 ^ 1) with 10. assert (PP : 0 < 10 ^ k * 2 ^ Z.of_nat f) by (apply Z.mul_pos_pos; apply Z.pow_pos_nonneg; lia). revert HI PP. generalize (10 ^ k), (2 ^ Z.of_nat f). intros x y HI PP. nia.
    + split; [|exact K]. split; [lia|]. split; [rewrite Z.pow_add_r by lia; lia|]. destruct LO as [LO|[-> ->]]; [right; replace (1 + k - 1) with k by lia; exact LO|left; split; reflexivity].
Qed.
Lemma ndigits_ok n : 0 <= n -> has_digits n (ndigits n).
Proof.
  intros H. unfold ndigits, log10_int. destruct (log10_ok (S (Z.to_nat (Z.log2 n))) 0 n) as (A & B); try lia.
  - rewrite Nat2Z.inj_succ, Z2Nat.id by apply Z.log2_nonneg. change (10 ^ 0) with 1. destruct (Z.eq_dec n 0) as [->|NZ]; [cbn; lia|]. destruct (Z.log2_spec n); lia.
  - change (10 ^ 0) with 1 in *. rewrite Z.max_r by exact B. exact A.
Qed.
Lemma format_len i : 0 <= i <= INT_MAX -> FormatInt i = to_string_N (Z.to_N i) /\ Z.of_nat (String.length (FormatInt i)) = ndigits i.
Proof.
  intros H. assert (E : FormatInt i = to_string_N (Z.to_N i)). { unfold FormatInt, as_int. destruct (Z.ltb_spec INT_MAX i); [lia|]. unfold to_string_Z. destruct i; try reflexivity. lia. }
  split; [exact E|]. rewrite E. apply (has_unique i); [|apply ndigits_ok; lia]. rewrite <- (Z2N.id i) at 1 by lia. apply to_string_len.
Qed.
Lemma ndigits_mono i n : 0 <= i < n -> ndigits i <= ndigits n.
Proof.
  intros H. pose proof (ndigits_ok i ltac:(lia)) as (A1 & A2 & A3). pose proof (ndigits_ok n ltac:(lia)) as (B1 & B2 & B3). destruct (Z.le_gt_cases (ndigits i) (ndigits n)) as [G|G]; [exact G|]. exfalso.
  assert (10 ^ ndigits n <= 10 ^ (ndigits i - 1)) by (apply Z.pow_le_mono_r; lia). destruct A3 as [[A3 A4]|A3]; lia.
Qed.
Lemma name_ok n i : 0 <= i < n -> n <= INT_MAX + 1 -> exists d, formatUnnamedVar n i = Ret ("UNNAMED_" ++ d)%string /\ is_digits d /\ Z.of_nat (String.length d) = ndigits n /\ numeral d = i.
Proof.
  intros H HN. unfold formatUnnamedVar. pose proof (ndigits_mono i n H) as M. destruct (Z.ltb_spec (ndigits n - ndigits i) 0); [lia|]. eexists. split; [reflexivity|].
  destruct (format_len i ltac:(lia)) as [E L]. destruct (to_string_N_ok (Z.to_N i)) as (D & _ & V). rewrite <- E in D, V.
  split; [apply zeros_digits; exact D|]. split; [rewrite length_app, zeros_len, Nat2Z.inj_add, L, Z2Nat.id; lia|]. rewrite zeros_numeral, V. apply Z2N.id. lia.
Qed.
Lemma names_ok n ids i j : (n <= 2147483648)%Z -> Z.of_nat (List.length ids) = n -> (i < List.length ids)%nat -> (j < List.length ids)%nat -> exists s t, varNameByIndex n ids i = Ret s /\ varNameByIndex n ids j = Ret t /\
  String.length s = String.length t /\ String.compare s t = Nat.compare i j.
Proof.
  intros HN LN HI HJ. unfold varNameByIndex. destruct (rd_ok ids i HI) as (a & ->). destruct (rd_ok ids j HJ) as (b & ->). cbn [obind].
  destruct (name_ok n (Z.of_nat i)) as (d & E & D & L & V); [lia|unfold INT_MAX; lia|]. destruct (name_ok n (Z.of_nat j)) as (d' & E' & D' & L' & V'); [lia|unfold INT_MAX; lia|].
  rewrite E, E'. eexists. eexists. split; [reflexivity|]. split; [reflexivity|]. split; [rewrite !length_app; lia|]. rewrite compare_prefix, compare_numeral by (try assumption; lia). rewrite V, V'. apply Nat2Z.inj_compare.
Qed.
