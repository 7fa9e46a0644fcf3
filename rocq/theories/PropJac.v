(** PropJac.v - property theorems about numerical Jacobians (C20-C24, C58).  Only statements closed by lemmas. *)
From Coq Require Import List Arith ZArith QArith Qcanon Permutation.
From Verif Require Import Base SMap SpModel SpSpec MapModel JacModel JacSpec JacFacts JacFacts2 JacFacts3.
Import ListNotations.
Local Open Scope nat_scope.

(** * C21: computeJacobian *)
(** For every arithmetic, every mapping and point: the mapping is evaluated at x0 and at each single-component
    perturbation, in that order and nowhere else; an element is stored iff the output changed, with the difference quotient. *)
Theorem C21_difference_quotients : forall (N : Num) (dx : nT N) (g : vmapping N) (F : list (nT N) -> list (nT N)) (n : nat) (x0 : list (nT N)),
  computes g F n n -> length x0 = n ->
  exists J, computeJacobian dx g x0 = Ret (J, x0 :: map (bumped x0 dx) (seq 0 n)) /\
    fast J = false /\ ssz J = (n, n) /\ row_major (sdat J) /\
    (forall r c, r < n -> c < n -> sfind J (r, c) = if neqb N (change F x0 dx r c) (n0 N) then None else Some (quotient F x0 dx r c)) /\
    (forall r c, n <= r \/ n <= c -> sfind J (r, c) = None).
Proof. exact @computeJacobian_ok. Qed.
Print Assumptions C21_difference_quotients.

(** Exact arithmetic: the Jacobian of F(x) = A x + b is A, with exactly its nonzero elements stored. *)
Theorem C21_exact_on_affine : forall (n : nat) (A : nat -> nat -> Qc) (b : nat -> Qc) (F : list Qc -> list Qc) (g : vmapping QcNum) (x0 : list Qc) (dx : Qc),
  computes g F n n -> affine n A b F -> length x0 = n -> dx <> 0%Qc ->
  exists J, computeJacobian (N:=QcNum) dx g x0 = Ret (J, x0 :: map (bumped (N:=QcNum) x0 dx) (seq 0 n)) /\ ssz J = (n, n) /\
    forall r c, r < n -> c < n -> get J (r, c) = A r c /\ (hasIndex J (r, c) = true <-> A r c <> 0%Qc).
Proof. exact computeJacobian_affine. Qed.
Print Assumptions C21_exact_on_affine.

(** * C20: the diagonal chosen by MappingNormalizer::normalize *)
Theorem C20_normalize_unit_diagonal : forall (n : nat) (A : nat -> nat -> Qc) (b : nat -> Qc) (F : list Qc -> list Qc) (g : vmapping QcNum)
  (x0 : list Qc) (dx : Qc) (sq : Qc -> Qc),
  computes g F n n -> affine n A b F -> length x0 = n -> dx <> 0%Qc ->
  (forall i, i < n -> (sq (Qcabs (A i i)) * sq (Qcabs (A i i)))%Qc = Qcabs (A i i)) ->
  ((forall i, i < n -> A i i <> 0%Qc) -> exists d, normalize (N:=QcNum) dx sq g x0 = Ret d /\ length d = n /\
     forall i, i < n -> Qcabs (nth i d 0 * A i i * nth i d 0)%Qc = 1%Qc) /\
  ((exists i, i < n /\ A i i = 0%Qc) -> normalize (N:=QcNum) dx sq g x0 = Throw).
Proof. exact normalize_ok. Qed.
Print Assumptions C20_normalize_unit_diagonal.

(** * C22: the compressed Jacobian *)
(** Same positions, each value is the difference quotient of its own column; x0 and one point per group are evaluated. *)
Theorem C22_compressed_equals_columnwise : forall (N : Num) (delta : nT N) (g : vmapping N) (F : list (nT N) -> list (nT N)) (n m : nat) (x0 : list (nT N)) (J : smat N),
  computes g F n m -> ssz J = (m, n) -> length x0 = n -> well_sized J -> respects F n J ->
  exists J' xs, computeSparseJacobian delta g x0 J = Ret (J', x0 :: xs) /\
    fast J' = fast J /\ ssz J' = ssz J /\ map fst (sdat J') = map fst (sdat J) /\
    length xs = length (groups J) /\
    forall r c v, In ((r, c), v) (sdat J') -> v = quotient F x0 delta r c.
Proof. exact @calculate_respects. Qed.
Print Assumptions C22_compressed_equals_columnwise.

(** The number of evaluations announced is the number made, and it depends on the positions only, not on the values. *)
Theorem C22_evaluation_count : forall (N : Num) (delta : nT N) (g : vmapping N) (F : list (nT N) -> list (nT N)) (n m : nat) (x0 : list (nT N)) (J J0 : smat N) (lay : layout),
  computes g F n m -> ssz J = (m, n) -> length x0 = n -> well_sized J ->
  ssz J0 = ssz J -> map fst (sdat J0) = map fst (sdat J) -> calc_layout J0 = Ret lay ->
  exists J' log, calculate delta lay g x0 J = Ret (J', log) /\ length log = evaluationsRequired lay /\ evaluationsRequired lay <= n + 1.
Proof. exact @calculate_count. Qed.
Print Assumptions C22_evaluation_count.

(** * C23: column groups *)
Theorem C23_groups_partition_columns : forall (N : Num) (J : smat N), Permutation (concat (groups J)) (seq 0 (snd (ssz J))).
Proof. exact @groups_partition. Qed.
Print Assumptions C23_groups_partition_columns.
Theorem C23_groups_orthogonal : forall (N : Num) (J : smat N) (G : list nat) (c c' r : nat),
  In G (groups J) -> In c G -> In c' G -> c <> c' -> stored J r c -> ~ stored J r c'.
Proof. exact @groups_orthogonal. Qed.
Print Assumptions C23_groups_orthogonal.
(** Groups are not empty, so there are at most as many as columns. *)
Theorem C23_group_count : forall (N : Num) (J : smat N), (forall G, In G (groups J) -> G <> []) /\ length (groups J) <= snd (ssz J).
Proof. exact @groups_count. Qed.
Print Assumptions C23_group_count.
(** A column is refused by a group only if it shares a row with a column already in it. *)
Theorem C23_groups_maximal : forall (N : Num) (J : smat N) (i j : nat) (G G' : list nat) (c' : nat),
  nth_error (groups J) i = Some G -> nth_error (groups J) j = Some G' -> i < j -> In c' G' ->
  exists c r, In c G /\ stored J r c /\ stored J r c'.
Proof. exact @groups_maximal. Qed.
Print Assumptions C23_groups_maximal.

(** * C24: trimmers *)
Theorem C24_width : forall (N : Num) (width : Z) (J : smat N), fast J = false -> row_major (sdat J) -> (0 <= width < 2 ^ 31)%Z ->
  (forall r c, stored J r c -> (Z.of_nat r < 2 ^ 31 /\ Z.of_nat c < 2 ^ 31)%Z) ->
  exists J', trim_width width J = Ret J' /\ fast J' = false /\ ssz J' = ssz J /\ row_major (sdat J') /\
    (forall r c x, sfind J' (r, c) = Some x <-> sfind J (r, c) = Some x /\ (width = 0%Z \/ (Z.abs (Z.of_nat r - Z.of_nat c) < width)%Z)) /\
    trim_width width J' = Ret J'.
Proof. exact @trim_width_ok. Qed.
Print Assumptions C24_width.
Theorem C24_threshold : forall (thr : Qc) (J : smat QcNum), fast J = false -> row_major (sdat J) ->
  exists J', trim_threshold (N:=QcNum) thr J = Ret J' /\ fast J' = false /\ ssz J' = ssz J /\ row_major (sdat J') /\
    (forall r c x, sfind J' (r, c) = Some x <->
       sfind J (r, c) = Some x /\ (r = c \/ forall p y, sfind J p = Some y -> (thr * Qcabs y <= Qcabs x)%Qc)) /\
    trim_threshold (N:=QcNum) thr J' = Ret J'.
Proof. exact trim_threshold_all. Qed.
Print Assumptions C24_threshold.

(** * C58: the provider over any history of evaluations and resets without a trimmer *)
(** No call fails.  The first one after a reset (or while nothing is stored) is a full evaluation and fixes the pattern ... *)
Theorem C58_first_evaluation : forall (N : Num) (dx : nT N) (n : nat) (p : sprov N) (g : vmapping N) (F : list (nT N) -> list (nT N)) (x0 : list (nT N)),
  sp_reach dx n p -> computes g F n n -> length x0 = n -> sdat (spJ p) = [] ->
  exists p', sp_compute dx None g x0 p = Ret (p', x0 :: map (bumped x0 dx) (seq 0 n)) /\
    (forall r c, hasIndex (spJ p') (r, c) = true <-> r < n /\ c < n /\ neqb N (change F x0 dx r c) (n0 N) = false) /\
    (forall r c, hasIndex (spJ p') (r, c) = true -> get (spJ p') (r, c) = quotient F x0 dx r c).
Proof. exact @sp_first. Qed.
Print Assumptions C58_first_evaluation.
(** ... later calls keep that pattern, evaluate once per group, and give the difference quotients if the mapping respects the pattern. *)
Theorem C58_later_evaluations : forall (N : Num) (dx : nT N) (n : nat) (p : sprov N) (g : vmapping N) (F : list (nT N) -> list (nT N)) (x0 : list (nT N)),
  sp_reach dx n p -> computes g F n n -> length x0 = n -> sdat (spJ p) <> [] ->
  exists p' xs, sp_compute dx None g x0 p = Ret (p', x0 :: xs) /\ length xs = length (groups (spJ p)) /\
    map fst (sdat (spJ p')) = map fst (sdat (spJ p)) /\
    (respects F n (spJ p) -> forall r c v, In ((r, c), v) (sdat (spJ p')) -> v = quotient F x0 dx r c).
Proof. exact @sp_later. Qed.
Print Assumptions C58_later_evaluations.
