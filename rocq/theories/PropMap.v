(** PropMap.v - property theorems about vector mappings (C18, C19, C20).  Only statements closed by lemmas. *)
From Coq Require Import List Arith QArith Qcanon Permutation.
From Verif Require Import Base MapModel MapSpec MapFacts.
Import ListNotations.
Local Open Scope nat_scope.

(** * C18: narrowing *)
(** A set of disabled indices is accepted iff all are below the size. *)
Theorem C18_accepted_iff_in_range : forall (N : Num) (o : narrowing N) (ds : list nat) (st : list (nT N)),
  (exists o', setInputNarrowing o ds st = Ret o') <-> (forall i, In i ds -> i < inSize (nmap o)).
Proof. exact @set_input_throws. Qed.
Print Assumptions C18_accepted_iff_in_range.

(** Narrowing removes exactly the disabled components, keeping the order of the others; the reported size fits. *)
Theorem C18_narrow_input : forall (N : Num) (o o' : narrowing N) (ds : list nat) (st : list (nT N)),
  setInputNarrowing o ds st = Ret o' ->
  narrow_inSize o' = length (enabled ds (inSize (nmap o))) /\
  forall (d : nT N) (x : list (nT N)), length x = inSize (nmap o) -> narrowInput o' x = Ret (pick d x (enabled ds (length x))).
Proof. exact @narrow_spec. Qed.
Print Assumptions C18_narrow_input.

Theorem C18_narrow_output : forall (N : Num) (o o' : narrowing N) (ds : list nat),
  setOutputNarrowing o ds = Ret o' ->
  narrow_outSize o' = length (enabled ds (outSize (nmap o))) /\
  forall (d : nT N) (x : list (nT N)), length x = outSize (nmap o) -> narrowOutput o' x = Ret (pick d x (enabled ds (length x))).
Proof. exact @narrow_output_spec. Qed.
Print Assumptions C18_narrow_output.

(** Widening re-inserts the frozen values, and narrowing it again gives the argument back. *)
Theorem C18_widen_input : forall (N : Num) (o o' : narrowing N) (ds : list nat) (st : list (nT N)),
  setInputNarrowing o ds st = Ret o' -> length st = inSize (nmap o) ->
  forall (src : list (nT N)) (d : nT N), length src = narrow_inSize o' ->
  exists w, widenInput o' src = Ret w /\ length w = inSize (nmap o) /\
    (forall i, In i ds -> nth i w d = nth i st d) /\ narrowInput o' w = Ret src.
Proof. exact @widen_spec. Qed.
Print Assumptions C18_widen_input.

(** Widening a narrowed vector restores it when it agrees with the frozen values. *)
Theorem C18_widen_after_narrow : forall (N : Num) (o o' : narrowing N) (ds : list nat) (st : list (nT N)),
  setInputNarrowing o ds st = Ret o' -> length st = inSize (nmap o) ->
  forall (x : list (nT N)) (d : nT N), length x = inSize (nmap o) -> (forall i, In i ds -> nth i x d = nth i st d) ->
  exists v, narrowInput o' x = Ret v /\ length v = narrow_inSize o' /\ widenInput o' v = Ret x.
Proof. exact @widen_narrow. Qed.
Print Assumptions C18_widen_after_narrow.

(** The narrowed mapping: widen, map, (narrow the output when output narrowing is the same set of indices). *)
Theorem C18_map_input_narrowed : forall (N : Num) (o o' : narrowing N) (ds : list nat) (st : list (nT N)),
  disOut o = [] -> setInputNarrowing o ds st = Ret o' ->
  forall v, narrow_map o' v = (w <- widenInput o' v ;; mapf (nmap o) w).
Proof. exact @narrow_map_no_output. Qed.
Print Assumptions C18_map_input_narrowed.

Theorem C18_map_both_narrowed : forall (N : Num) (o o1 o2 : narrowing N) (ds es : list nat) (st : list (nT N)),
  setInputNarrowing o ds st = Ret o1 -> setOutputNarrowing o1 es = Ret o2 -> same_set ds es ->
  forall v, narrow_map o2 v = (w <- widenInput o2 v ;; y <- mapf (nmap o) w ;; narrowOutput o2 y).
Proof. exact @narrow_map_both. Qed.
Print Assumptions C18_map_both_narrowed.

(** With any non-empty set of disabled outputs the value is narrowed by the set of disabled inputs. *)
Theorem C18_map_any_narrowing : forall (N : Num) (o o1 o2 : narrowing N) (ds es : list nat) (st : list (nT N)),
  setInputNarrowing o ds st = Ret o1 -> setOutputNarrowing o1 es = Ret o2 -> es <> [] ->
  forall v, narrow_map o2 v = (w <- widenInput o2 v ;; y <- mapf (nmap o) w ;; narrowInput o2 y).
Proof. exact @narrow_map_any. Qed.
Print Assumptions C18_map_any_narrowing.

(** * C19: reordering *)
(** Unordering undoes ordering for every vector exactly when the ordering is a permutation. *)
Theorem C19_unorder_order_iff_permutation : forall (ord : list nat),
  (forall x : list Qc, length x = length ord -> (y <- order (N:=QcNum) ord x ;; unorder (N:=QcNum) ord [] y) = Ret x) <->
  Permutation ord (seq 0 (length ord)).
Proof. exact unorder_order_iff. Qed.
Print Assumptions C19_unorder_order_iff_permutation.

Theorem C19_unorder_order : forall (N : Num) (ord : list nat) (n : nat) (dst x : list (nT N)),
  Permutation ord (seq 0 n) -> length x = n -> (y <- order ord x ;; unorder ord dst y) = Ret x.
Proof. exact @unorder_order. Qed.
Print Assumptions C19_unorder_order.

Theorem C19_order_unorder : forall (N : Num) (ord : list nat) (n : nat) (dst x : list (nT N)),
  Permutation ord (seq 0 n) -> length x = n -> (y <- unorder ord dst x ;; order ord y) = Ret x.
Proof. exact @order_unorder. Qed.
Print Assumptions C19_order_unorder.

Theorem C19_order_elements : forall (N : Num) (d : nT N) (ord : list nat) (x : list (nT N)),
  (forall i, In i ord -> i < length x) -> order ord x = Ret (pick d x ord).
Proof. exact @order_ok. Qed.
Print Assumptions C19_order_elements.

(** The reordered mapping commutes with the orderings. *)
Theorem C19_map_conjugate : forall (N : Num) (o : reordering N) (x : list (nT N)),
  Permutation (inOrd o) (seq 0 (inSize (rmap o))) -> length x = inSize (rmap o) ->
  (y <- orderInput o x ;; reord_map o y) = (z <- mapf (rmap o) x ;; orderOutput o z).
Proof. exact @reord_conjugate. Qed.
Print Assumptions C19_map_conjugate.

Theorem C19_map_value : forall (N : Num) (o : reordering N) (x : list (nT N)),
  Permutation (inOrd o) (seq 0 (inSize (rmap o))) -> Permutation (outOrd o) (seq 0 (outSize (rmap o))) ->
  length x = inSize (rmap o) -> (forall u, length u = inSize (rmap o) -> exists y, mapf (rmap o) u = Ret y /\ length y = outSize (rmap o)) ->
  exists u y z, unorderInput o x = Ret u /\ orderInput o u = Ret x /\ mapf (rmap o) u = Ret y /\ reord_map o x = Ret z /\ unorderOutput o z = Ret y.
Proof. exact @reord_map_ok. Qed.
Print Assumptions C19_map_value.

(** * C20: diagonal scaling *)
Theorem C20_unmap_map_iff_nonzero : forall (dv : list Qc),
  (forall x : list Qc, length x = length dv -> (y <- diag_map (N:=QcNum) dv x ;; diag_unmap (N:=QcNum) dv y) = Ret x) <->
  (forall b, In b dv -> b <> 0%Qc).
Proof. exact diag_roundtrip. Qed.
Print Assumptions C20_unmap_map_iff_nonzero.

Theorem C20_map_unmap : forall (dv x : list Qc), length x = length dv -> (forall b, In b dv -> b <> 0%Qc) ->
  (y <- diag_unmap (N:=QcNum) dv x ;; diag_map (N:=QcNum) dv y) = Ret x.
Proof. exact diag_unmap_map. Qed.
Print Assumptions C20_map_unmap.

Theorem C20_elements : forall (N : Num) (op : nT N -> nT N -> nT N) (d : nT N) (dv x : list (nT N)), length x = length dv ->
  exists y, diag_op op dv x = Ret y /\ length y = length x /\ forall i, i < length x -> nth i y d = op (nth i x d) (nth i dv d).
Proof. exact @diag_ok. Qed.
Print Assumptions C20_elements.

(** The normalized mapping scales the argument and the value by the same diagonal. *)
Theorem C20_normalized_mapping : forall (N : Num) (f : vmapping N) (dv x : list (nT N)),
  length dv = inSize f -> outSize f = inSize f -> length x = inSize f ->
  (forall u, length u = inSize f -> exists y, mapf f u = Ret y /\ length y = outSize f) ->
  exists a y z, length a = inSize f /\ (forall i, i < inSize f -> nth i a (n0 N) = nmul N (nth i x (n0 N)) (nth i dv (n0 N))) /\
    mapf f a = Ret y /\ norm_map f dv x = Ret z /\ length z = outSize f /\
    (forall i, i < outSize f -> nth i z (n0 N) = nmul N (nth i y (n0 N)) (nth i dv (n0 N))).
Proof. exact @norm_map_ok. Qed.
Print Assumptions C20_normalized_mapping.
