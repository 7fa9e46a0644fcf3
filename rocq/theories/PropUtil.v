(** PropUtil.v - C47, C50, C53: statistics, variable names, mathematical helpers. *)
From Coq Require Import List Arith Bool ZArith QArith Qcanon Qround Qabs Reals String Permutation.
From Verif Require Import Base RkSpec ParModel UtilModel UtilSpec UtilFacts UtilFacts2 UtilFacts3.
Import ListNotations.
Local Open Scope nat_scope.

(** C47.  Collected statistics are the largest absolute value, the sum of absolute values and the sum of squares of each component, and the number of samples. *)
Theorem C47_statistics : forall (n : nat) (l : list (list Qc)), samples n l ->
  exists s, es_run l (es_new n) = (s, Ret tt) /\ List.length (es_max s) = n /\ List.length (es_sum s) = n /\ List.length (es_sq s) = n /\ es_n s = (Z.of_nat (List.length l) mod 4294967296)%Z /\
  forall j, j < n -> largest_abs l j (cmp_ (es_max s) j) /\ cmp_ (es_sum s) j = sum_abs l j /\ cmp_ (es_sq s) j = sum_squares l j.
Proof. exact stats_all. Qed.
Print Assumptions C47_statistics.
(** C47.  Merging the statistics of two sequences gives the statistics of the concatenation. *)
Theorem C47_merge : forall (n : nat) (l1 l2 : list (list Qc)) (s1 s2 : estats), samples n l1 -> samples n l2 ->
  es_run l1 (es_new n) = (s1, Ret tt) -> es_run l2 (es_new n) = (s2, Ret tt) ->
  exists s, es_merge s1 s2 = Ret s /\ es_run (l1 ++ l2) (es_new n) = (s, Ret tt).
Proof. exact stats_merge. Qed.
Print Assumptions C47_merge.
(** C47.  The order of the samples does not matter. *)
Theorem C47_any_order : forall (n : nat) (l l' : list (list Qc)), samples n l -> Permutation l l' -> es_run l (es_new n) = es_run l' (es_new n).
Proof. exact stats_perm. Qed.
Print Assumptions C47_any_order.
(** C47.  The mean error is the mean of the absolute values and lies between 0 and the maximum. *)
Theorem C47_mean : forall (n : nat) (l : list (list Qc)) (s : estats), samples n l -> es_run l (es_new n) = (s, Ret tt) -> 0 < List.length l -> (Z.of_nat (List.length l) < 4294967296)%Z ->
  List.length (es_mean s) = n /\ forall j, j < n ->
  cmp_ (es_mean s) j = (sum_abs l j / Q2Qc (inject_Z (Z.of_nat (List.length l))))%Qc /\ (0 <= cmp_ (es_mean s) j)%Qc /\ (cmp_ (es_mean s) j <= cmp_ (es_max s) j)%Qc.
Proof. exact mean_ok. Qed.
Print Assumptions C47_mean.
(** C47.  errorMeanSqareDev takes the root of (S^2 + Q)/k, S the sum of absolute values and Q the sum of squares: the root mean square is reported exactly when all samples are zero. *)
Theorem C47_mean_square : forall (n : nat) (l : list (list Qc)) (s : estats), samples n l -> es_run l (es_new n) = (s, Ret tt) -> 0 < List.length l -> (Z.of_nat (List.length l) < 4294967296)%Z ->
  exists v, es_msd2 s = Ret v /\ List.length v = n /\ forall j, j < n ->
    cmp_ v j = ((sum_abs l j * sum_abs l j + sum_squares l j) / Q2Qc (inject_Z (Z.of_nat (List.length l))))%Qc /\
    (cmp_ v j = (sum_squares l j / Q2Qc (inject_Z (Z.of_nat (List.length l))))%Qc <-> sum_abs l j = 0%Qc).
Proof. exact msd_ok. Qed.
Print Assumptions C47_mean_square.
(** C47.  A sample is accepted exactly when it has as many components as the statistics, otherwise an exception is thrown. *)
Theorem C47_sample_size : forall (n : nat) (e : list Qc) (s : estats), List.length (es_max s) = n -> List.length (es_sum s) = n -> List.length (es_sq s) = n ->
  (snd (es_add e s) = Ret tt <-> List.length e = n) /\ (List.length e <> n -> snd (es_add e s) = Throw).
Proof. exact wrong_size. Qed.
Print Assumptions C47_sample_size.
(** C47.  Timing statistics: totals modulo the widths of the counters, merging is concatenation, the average is the floor of the mean. *)
Theorem C47_timing : forall l : list Z, timed l = mkTs (total l mod 2 ^ 64) (Z.of_nat (List.length l) mod 2 ^ 32).
Proof. exact timed_ok. Qed.
Print Assumptions C47_timing.
Theorem C47_timing_merge : forall a b : list Z, ts_merge (timed a) (timed b) = timed (a ++ b).
Proof. exact timed_merge. Qed.
Print Assumptions C47_timing_merge.
Theorem C47_timing_average : forall l : list Z, 0 < List.length l -> (Z.of_nat (List.length l) < 2 ^ 32)%Z -> (0 <= total l < 2 ^ 64)%Z ->
  let k := Z.of_nat (List.length l) in (ts_average (timed l) * k <= total l < (ts_average (timed l) + 1) * k)%Z.
Proof. exact timed_average. Qed.
Print Assumptions C47_timing_average.

(** C50.  With as many variable identifiers as variables, the names of two variables exist, are equally long and compare like the indices (so they are distinct). *)
Theorem C50_names : forall (n : Z) (ids : list nat) (i j : nat), (n <= 2147483648)%Z -> Z.of_nat (List.length ids) = n -> i < List.length ids -> j < List.length ids ->
  exists s t, varNameByIndex n ids i = Ret s /\ varNameByIndex n ids j = Ret t /\ String.length s = String.length t /\ String.compare s t = Nat.compare i j.
Proof. exact names_ok. Qed.
Print Assumptions C50_names.

(** C53.  modp reduces into [0, m) and stays congruent. *)
Theorem C53_modp : forall x m : Z, (-2147483648 < x <= 2147483647)%Z -> (0 < m < 4294967296)%Z -> exists r, modp x m = Ret r /\ (0 <= r < m)%Z /\ exists k, (x = k * m + r)%Z.
Proof. exact modp_ok. Qed.
Print Assumptions C53_modp.
(** C53.  roundi gives the nearest integer, the one farther from zero if there are two. *)
Theorem C53_roundi : forall (x : Q) (r : Z), (Qabs x < 4294967295 # 2)%Q ->
  roundi x = Ret r <-> (Qabs (x - inject_Z r) <= 1 # 2)%Q /\ ((Qabs (x - inject_Z r) == 1 # 2)%Q -> (Qabs x <= Qabs (inject_Z r))%Q).
Proof. exact roundi_ok. Qed.
Print Assumptions C53_roundi.
(** C53.  modd reduces into [bias, bias + period) by a multiple of the period. *)
Theorem C53_modd : forall x p b : Q, (0 < p)%Q -> (b <= modd x p b < b + p)%Q /\ exists k : Z, (x - modd x p b == inject_Z k * p)%Q.
Proof. exact modd_ok. Qed.
Print Assumptions C53_modd.
(** C53.  The cubic takes the given values and slopes at 0 and 1; D, D2 and D3 are its derivatives. *)
Theorem C53_cubic_ends : forall a b c d : R, CalcCubicPolynom a b c d 0 = a /\ CalcCubicPolynomD a b c d 0 = b /\ CalcCubicPolynom a b c d 1 = c /\ CalcCubicPolynomD a b c d 1 = d.
Proof. exact calc_ends. Qed.
Print Assumptions C53_cubic_ends.
Theorem C53_cubic_derivatives : forall a b c d t : R, derivable_pt_lim (CalcCubicPolynom a b c d) t (CalcCubicPolynomD a b c d t) /\
  derivable_pt_lim (CalcCubicPolynomD a b c d) t (CalcCubicPolynomD2 a b c d t) /\ derivable_pt_lim (CalcCubicPolynomD2 a b c d) t (CalcCubicPolynomD3 a b c d t).
Proof. exact calc_derivatives. Qed.
Print Assumptions C53_cubic_derivatives.
(** C53.  Every cubic polynomial is reproduced from its values and slopes at 0 and 1. *)
Theorem C53_cubic_reproduced : forall p0 p1 p2 p3 t : R,
  CalcCubicPolynom (cubic_poly p0 p1 p2 p3 0) (cubic_slope p1 p2 p3 0) (cubic_poly p0 p1 p2 p3 1) (cubic_slope p1 p2 p3 1) t = cubic_poly p0 p1 p2 p3 t.
Proof. exact calc_unique. Qed.
Print Assumptions C53_cubic_reproduced.
(** C53.  The basis functions: one has value 1 at an end or slope 1 at an end, everything else 0; their derivatives are the declared ones; the cubic is their combination. *)
Theorem C53_basis_ends : (f00 0 = 1 /\ f00 1 = 0 /\ df00 0 = 0 /\ df00 1 = 0)%R /\ (f01 0 = 0 /\ f01 1 = 1 /\ df01 0 = 0 /\ df01 1 = 0)%R /\
  (f10 0 = 0 /\ f10 1 = 0 /\ df10 0 = 1 /\ df10 1 = 0)%R /\ (f11 0 = 0 /\ f11 1 = 0 /\ df11 0 = 0 /\ df11 1 = 1)%R.
Proof. exact basis_ends. Qed.
Print Assumptions C53_basis_ends.
Theorem C53_basis_derivatives : forall t : R, derivable_pt_lim f00 t (df00 t) /\ derivable_pt_lim f01 t (df01 t) /\ derivable_pt_lim f10 t (df10 t) /\ derivable_pt_lim f11 t (df11 t) /\
  derivable_pt_lim df00 t (d2f00 t) /\ derivable_pt_lim df01 t (d2f01 t) /\ derivable_pt_lim df10 t (d2f10 t) /\ derivable_pt_lim df11 t (d2f11 t).
Proof. exact basis_derivatives. Qed.
Print Assumptions C53_basis_derivatives.
Theorem C53_basis_combination : forall a b c d t : R, CalcCubicPolynom a b c d t = (a * f00 t + b * f10 t + c * f01 t + d * f11 t)%R /\
  CalcCubicPolynomD a b c d t = (a * df00 t + b * df10 t + c * df01 t + d * df11 t)%R /\ CalcCubicPolynomD2 a b c d t = (a * d2f00 t + b * d2f10 t + c * d2f01 t + d * d2f11 t)%R.
Proof. exact calc_basis. Qed.
Print Assumptions C53_basis_combination.
(** C53.  The same on a segment of length L. *)
Theorem C53_segment_ends : forall L : R, L <> 0%R -> (f00L 0 L = 1 /\ f00L L L = 0 /\ df00L 0 L = 0 /\ df00L L L = 0)%R /\ (f01L 0 L = 0 /\ f01L L L = 1 /\ df01L 0 L = 0 /\ df01L L L = 0)%R /\
  (f10L 0 L = 0 /\ f10L L L = 0 /\ df10L 0 L = 1 /\ df10L L L = 0)%R /\ (f11L 0 L = 0 /\ f11L L L = 0 /\ df11L 0 L = 0 /\ df11L L L = 1)%R.
Proof. exact segment_ends. Qed.
Print Assumptions C53_segment_ends.
Theorem C53_segment_derivatives : forall x L : R, L <> 0%R ->
  (derivable_pt_lim (fun x => f00L x L) x (df00L x L) /\ derivable_pt_lim (fun x => f01L x L) x (df01L x L) /\ derivable_pt_lim (fun x => f10L x L) x (df10L x L) /\ derivable_pt_lim (fun x => f11L x L) x (df11L x L)) /\
  (derivable_pt_lim (fun x => df00L x L) x (d2f00L x L) /\ derivable_pt_lim (fun x => df01L x L) x (d2f01L x L) /\ derivable_pt_lim (fun x => df10L x L) x (d2f10L x L) /\ derivable_pt_lim (fun x => df11L x L) x (d2f11L x L)).
Proof. exact segment_derivatives. Qed.
Print Assumptions C53_segment_derivatives.
