(** PropVec.v - property theorems about vectors (C01, C56).  Only statements closed by lemmas. *)
From Coq Require Import List Arith QArith Qcanon.
From Verif Require Import Base VecModel VecSpec VecFacts VecFacts2 VecFacts3.
Import ListNotations.
Local Open Scope nat_scope.

(** a += b : element-wise, nothing else changes; b may be longer (its excess is ignored), a view of the same
    vector (as long as the loop does not overwrite what it still has to read), or scaled.  Any arithmetic. *)
Theorem C01_plus_elementwise : forall (N : Num) (m : mem N) (dst src : vexpr N),
  well_formed m dst -> assignable dst -> well_formed m src -> vsize m dst <= vsize m src -> order_safe m dst src ->
  exists m', vpluseq m dst src = (m', Ret tt) /\ only_changes m m' dst /\
    (forall i x y, i < vsize m dst -> vat m dst i = Ret x -> vat m src i = Ret y -> vat m' dst i = Ret (nadd N x y)) /\
    (vbase src <> vbase dst -> forall i, vat m' src i = vat m src i).
Proof. exact plus_elementwise. Qed.
Print Assumptions C01_plus_elementwise.

Theorem C01_minus_elementwise : forall (N : Num) (m : mem N) (dst src : vexpr N),
  well_formed m dst -> assignable dst -> well_formed m src -> vsize m dst <= vsize m src -> order_safe m dst src ->
  exists m', vminuseq m dst src = (m', Ret tt) /\ only_changes m m' dst /\
    (forall i x y, i < vsize m dst -> vat m dst i = Ret x -> vat m src i = Ret y -> vat m' dst i = Ret (nsub N x y)) /\
    (vbase src <> vbase dst -> forall i, vat m' src i = vat m src i).
Proof. exact minus_elementwise. Qed.
Print Assumptions C01_minus_elementwise.

Theorem C01_times_elementwise : forall (N : Num) (m : mem N) (dst : vexpr N) (k : nT N),
  well_formed m dst -> assignable dst ->
  exists m', vtimeseq m dst k = (m', Ret tt) /\ only_changes m m' dst /\
    forall i x, i < vsize m dst -> vat m dst i = Ret x -> vat m' dst i = Ret (nmul N x k).
Proof. exact @times_ok. Qed.
Print Assumptions C01_times_elementwise.

(** Views: scaled multiplies, block shifts; both keep / declare their size. *)
Theorem C01_views_read : forall (N : Num) (m : mem N) (e : vexpr N) (k : nT N) (from s i : nat),
  (forall x, vat m e i = Ret x -> vat m (VS e k) i = Ret (nmul N x k)) /\ vsize m (VS e k) = vsize m e /\
  vat m (VB e from s) i = vat m e (i + from) /\ vsize m (VB e from s) = s.
Proof. exact views_read. Qed.
Print Assumptions C01_views_read.

(** Every element of a well-formed view can be read. *)
Theorem C01_in_range_reads : forall (N : Num) (m : mem N) (e : vexpr N) i,
  well_formed m e -> i < vsize m e -> exists x, vat m e i = Ret x.
Proof. exact @vat_ok. Qed.
Print Assumptions C01_in_range_reads.

(** The right operand is a shorter vector (or a scaled one): an exception, exactly the common prefix updated. *)
Theorem C01_shorter_operand : forall (N : Num) (m : mem N) (dst : vexpr N) (b : nat),
  well_formed m dst -> assignable dst -> b < length m -> b <> vbase dst -> vsize m (VW b) < vsize m dst ->
  (exists m', vpluseq m dst (VW b) = (m', Throw) /\ only_changes m m' dst /\
     (forall i x y, i < vsize m (VW b) -> vat m dst i = Ret x -> vat m (VW b) i = Ret y -> vat m' dst i = Ret (nadd N x y)) /\
     (forall i, vsize m (VW b) <= i -> vat m' dst i = vat m dst i)) /\
  (exists m', vminuseq m dst (VW b) = (m', Throw) /\ only_changes m m' dst /\
     (forall i x y, i < vsize m (VW b) -> vat m dst i = Ret x -> vat m (VW b) i = Ret y -> vat m' dst i = Ret (nsub N x y)) /\
     (forall i, vsize m (VW b) <= i -> vat m' dst i = vat m dst i)).
Proof. exact shorter_operand. Qed.
Print Assumptions C01_shorter_operand.

(** Assigning a vector or a view of another vector: the target gets exactly the source's elements. *)
Theorem C56_assign_vector : forall (N : Num) (m : mem N) (id : nat) (src : vexpr N) (l : list (nT N)),
  id < length m -> well_formed m src -> vbase src <> id -> elements m src l ->
  exists m', vassign m (VW id) src = (m', Ret tt) /\ replaced m m' id l.
Proof. exact assign_vector. Qed.
Print Assumptions C56_assign_vector.

Theorem C56_assign_block : forall (N : Num) (m : mem N) (e : vexpr N) (from s : nat) (src : vexpr N),
  well_formed m (VB e from s) -> assignable e -> well_formed m src -> vsize m src = s -> order_safe m (VB e from s) src ->
  exists m', vassign m (VB e from s) src = (m', Ret tt) /\ only_changes m m' (VB e from s) /\
    forall i, i < s -> vat m' (VB e from s) i = vat m src i.
Proof. exact @assign_block. Qed.
Print Assumptions C56_assign_block.

(** clone: a new vector with the same elements; every existing vector is untouched. *)
Theorem C56_clone : forall (N : Num) (m : mem N) (src : vexpr N) (l : list (nT N)),
  well_formed m src -> elements m src l -> vclone m src = (m ++ [l], Ret (length m)).
Proof. exact clone_elements. Qed.
Print Assumptions C56_clone.

(** a + b and a - b: a new vector holding the element-wise result; every existing vector is untouched. *)
Theorem C56_sum_difference : forall (N : Num) (m : mem N) (a b : vexpr N) (la lb : list (nT N)),
  well_formed m a -> well_formed m b -> elements m a la -> elements m b lb -> length la = length lb ->
  vplus m a b = (m ++ [map (fun p => nadd N (fst p) (snd p)) (combine la lb)], Ret (length m)) /\
  vminus m a b = (m ++ [map (fun p => nsub N (fst p) (snd p)) (combine la lb)], Ret (length m)).
Proof. exact sum_difference. Qed.
Print Assumptions C56_sum_difference.

(** Exact arithmetic: dot product and norms. *)
Theorem C56_dot : forall (m : mem QcNum) (a b : vexpr QcNum) (la lb : list Qc),
  well_formed m a -> well_formed m b -> vsize m a <= vsize m b -> elements m a la -> elements m b lb ->
  vdot m a b = Ret (qsum (length la) (fun i => (nth i la 0 * nth i lb 0)%Qc)).
Proof. exact vdot_ok. Qed.
Print Assumptions C56_dot.

Theorem C56_norms : forall (m : mem QcNum) (e : vexpr QcNum) (l : list Qc),
  well_formed m e -> elements m e l ->
  (exists r : Qc, vinfnorm m e = Ret r /\ (forall x, In x l -> (Qcabs x <= r)%Qc) /\
     ((l = [] /\ r = 0%Qc) \/ exists x, In x l /\ r = Qcabs x)) /\
  vonenorm m e = Ret (qsum (length l) (fun i => Qcabs (nth i l 0%Qc))) /\
  veuclsq m e = Ret (qsum (length l) (fun i => (nth i l 0 * nth i l 0)%Qc)).
Proof. exact norms_ok. Qed.
Print Assumptions C56_norms.
