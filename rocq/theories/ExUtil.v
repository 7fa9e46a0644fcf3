(** ExUtil.v - concrete cases for C47, C50, C53. *)
From Coq Require Import List Arith Bool ZArith QArith Qcanon Qround Qabs Reals String Permutation Lra Lia.
From Verif Require Import Base BaseFacts RkSpec ParModel UtilModel UtilSpec UtilFacts3.
Import ListNotations.
Local Open Scope nat_scope.

Local Notation length := List.length (only parsing).
Definition show (r : estats * Outcome unit) : list Q * list Q * list Q * Z * Outcome unit :=
  (map this (es_max (fst r)), map this (es_sum (fst r)), map this (es_sq (fst r)), es_n (fst r), snd r).
Definition e1 : list Qc := [qc 1 1; qc (-3) 1].
Definition e2 : list Qc := [qc (-2) 1; qc 1 2].
Definition e3 : list Qc := [qc 1 2; qc 0 1].
Example C47_statistics_example : samples 2 [e1; e2; e3] /\ show (es_run [e1; e2; e3] (es_new 2)) = ([2; 3], [7 # 2; 7 # 2], [21 # 4; 37 # 4], 3%Z, Ret tt)%Q.
Proof. split; [repeat constructor|vm_compute; reflexivity]. Qed.
Example C47_merge_example : samples 2 [e1; e2] /\ samples 2 [e3] /\ show (es_run [e1; e2] (es_new 2)) = ([2; 3], [3; 7 # 2], [5; 37 # 4], 2%Z, Ret tt)%Q /\
  (match es_merge (stats_of 2 [e1; e2]) (stats_of 2 [e3]) with Ret s => show (s, Ret tt) | _ => show (es_default, Throw) end) = ([2; 3], [7 # 2; 7 # 2], [21 # 4; 37 # 4], 3%Z, Ret tt)%Q.
Proof. split; [repeat constructor|]. split; [repeat constructor|]. split; vm_compute; reflexivity. Qed.
Example C47_any_order_example : Permutation [e1; e2; e3] [e3; e1; e2] /\ show (es_run [e3; e1; e2] (es_new 2)) = ([2; 3], [7 # 2; 7 # 2], [21 # 4; 37 # 4], 3%Z, Ret tt)%Q.
Proof. split; [|vm_compute; reflexivity]. apply Permutation_sym. apply (Permutation_cons_app [e1; e2] [] e3). apply Permutation_refl. Qed.
Example C47_mean_example : map this (es_mean (stats_of 2 [e1; e2; e3])) = [7 # 6; 7 # 6]%Q.
Proof. vm_compute. reflexivity. Qed.
(** C47.  The deviation reported for the samples 1, 1 is the root of 3, not of 1. *)
Theorem C47_mean_square_refuted : exists (l : list (list Qc)) (s : estats), samples 1 l /\ es_run l (es_new 1) = (s, Ret tt) /\ 0 < List.length l /\ es_msd2 s = Ret [qc 3 1] /\
  (sum_squares l 0 / Q2Qc (inject_Z (Z.of_nat (List.length l))))%Qc = qc 1 1.
Proof.
  exists [[qc 1 1]; [qc 1 1]]. eexists. split; [repeat constructor|]. split; [reflexivity|]. split; [cbn; lia|].
  assert (Q : forall r, match es_msd2 r with Ret [a] => Some (this a) | _ => None end = Some (3 # 1)%Q -> es_msd2 r = Ret [qc 3 1]).
  { intros r. destruct (es_msd2 r) as [[|a [|? ?]]| |]; try discriminate. intros H. do 2 f_equal. injection H as H. apply Qc_is_canon. rewrite H. reflexivity. }
  split; [apply Q; vm_compute; reflexivity|]. apply Qc_is_canon. vm_compute. reflexivity.
Qed.
(** C47.  A rejected sample of the wrong size is counted, and a too short one cuts the maxima: the next correct sample is then rejected. *)
Theorem C47_rejected_sample_refuted : exists (e : list Qc) (s s' : estats), s = stats_of 2 [e1] /\ es_add e s = (s', Throw) /\ es_n s' = (es_n s + 1)%Z /\ List.length (es_max s') = 1 /\ snd (es_add e2 s') = Throw.
Proof. exists [qc 5 1]. do 2 eexists. split; [reflexivity|]. split; [vm_compute; reflexivity|]. split; [reflexivity|]. split; reflexivity. Qed.
(** C47.  Default constructed vector statistics accept no sample with components. *)
Theorem C47_default_refuted : forall (x : Qc) (e : list Qc), snd (es_add (x :: e) es_default) = Throw.
Proof. reflexivity. Qed.
Example C47_timing_example : timed [5; 7; 9]%Z = mkTs 21 3 /\ ts_average (timed [5; 7; 9]%Z) = 7%Z /\ ts_merge (timed [5]%Z) (timed [7; 9]%Z) = mkTs 21 3.
Proof. repeat split. Qed.
(** C47.  The tick total wraps at 2^64: the average is then far too small. *)
Theorem C47_timing_wrap_refuted : exists l, (forall t, In t l -> 0 <= t < 2 ^ 64)%Z /\ total l = (2 ^ 64 + 4)%Z /\ ts_average (timed l) = 2%Z.
Proof. exists [2 ^ 63 + 1; 2 ^ 63 + 3]%Z. split; [|split; vm_compute; reflexivity]. intros t [<-|[<-|[]]]; split; vm_compute; congruence. Qed.

(** C50 *)
Example C50_names_example : varNameByIndex 12 (seq 0 12) 3 = Ret "UNNAMED_03"%string /\ varNameByIndex 12 (seq 0 12) 11 = Ret "UNNAMED_11"%string /\ varNameByIndex 10 (seq 0 10) 9 = Ret "UNNAMED_09"%string.
Proof. repeat split. Qed.
(** C50.  The index 2^31 is printed as a negative number, before the smaller index 2^31 - 1, with a longer name. *)
Theorem C50_large_index_refuted : formatUnnamedVar 2147483649 2147483648 = Ret "UNNAMED_-2147483648"%string /\ formatUnnamedVar 2147483649 2147483647 = Ret "UNNAMED_2147483647"%string /\
  String.compare "UNNAMED_-2147483648" "UNNAMED_2147483647" = Lt.
Proof. split; [vm_compute; reflexivity|]. split; vm_compute; reflexivity. Qed.
(** C50.  An index with more digits than the variable count (possible when the identifiers outnumber the variables) throws; an index beyond the identifiers is undefined behaviour. *)
Theorem C50_index_beyond_count_refuted : varNameByIndex 3 (seq 0 12) 10 = Throw /\ varNameByIndex 3 (seq 0 3) 3 = UB.
Proof. split; reflexivity. Qed.

(** C53 *)
Example C53_modp_example : modp (-7) 3 = Ret 2%Z /\ modp (-6) 3 = Ret 0%Z /\ modp 7 3 = Ret 1%Z.
Proof. repeat split. Qed.
Theorem C53_modp_refuted : modp (-2147483648) 3 = UB /\ modp 5 0 = UB.
Proof. split; reflexivity. Qed.
Example C53_roundi_example : roundi (5 # 2) = Ret 3%Z /\ roundi (-5 # 2) = Ret (-3)%Z /\ roundi (-12 # 5) = Ret (-2)%Z.
Proof. repeat split. Qed.
(** C53.  The least int, a representable result, is undefined behaviour. *)
Theorem C53_roundi_refuted : roundi (-2147483648) = UB.
Proof. reflexivity. Qed.
Example C53_modd_example : (modd (-7 # 2) 3 1 == 5 # 2)%Q.
Proof. reflexivity. Qed.
Example C53_cubic_example : CalcCubicPolynom 1 2 3 4 (1/2) = (7/4)%R /\ CalcCubicPolynomD 1 2 3 4 (1/2) = (3/2)%R /\ f10L 1 2 = (1/4)%R.
Proof. unfold CalcCubicPolynom, CalcCubicPolynomD, f10L, f10. repeat split; lra. Qed.
