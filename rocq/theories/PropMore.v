(** PropMore.v - further property theorems (C02, C05, C18, C20, C48, C49, C50, C53). *)
From Coq Require Import List Arith Bool ZArith QArith Qcanon String Ascii.
From Verif Require Import Base SMap SpModel SpSpec MapModel MapSpec ParModel ParSpec UtilModel RkModel OutModel OutSpec MoreFacts.
Import ListNotations.
Local Open Scope nat_scope.

(** C02.  sizeFromData is the smallest size that contains every stored element. *)
Theorem C02_size_from_data : forall (N : Num) (a : smat N),
  (forall p x, In (p, x) (sdat a) -> fst p < fst (sizeFromData a) /\ snd p < snd (sizeFromData a)) /\
  (forall R C, (forall p x, In (p, x) (sdat a) -> fst p < R /\ snd p < C) -> fst (sizeFromData a) <= R /\ snd (sizeFromData a) <= C).
Proof. exact @size_from_data. Qed.
Print Assumptions C02_size_from_data.
(** C05.  scaledIdentity: the factor on the diagonal, nothing stored elsewhere. *)
Theorem C05_scaled_identity : forall (N : Num) (n : nat) (k : nT N), exists a, scaledIdentity n k = Ret a /\ fast a = false /\ ssz a = (n, n) /\ row_major (sdat a) /\
  (forall i, i < n -> get a (i, i) = nadd N (n0 N) k) /\ (forall r c, r <> c \/ n <= r -> hasIndex a (r, c) = false).
Proof. exact @scaled_identity. Qed.
Print Assumptions C05_scaled_identity.
(** C05.  A map-backed matrix constructed from a matrix or view has its size and elements; nothing else changes. *)
Theorem C05_construct : forall (N : Num) (m : mems N) (src : sexpr N) (fuel : nat), mems_ok m -> sbase src < List.length m -> List.length (sdat (obj m (sbase src))) < fuel ->
  exists m', sconstruct fuel m false src = Some (m', Ret tt) /\ mems_ok m' /\ List.length m' = S (List.length m) /\ (forall j, j < List.length m -> obj m' j = obj m j) /\
    fast (obj m' (List.length m)) = false /\ ssz (obj m' (List.length m)) = ssize m src /\
    forall p x, sfind (obj m' (List.length m)) p = Some x <-> In (p, x) (siter m src).
Proof. exact @construct_ok. Qed.
Print Assumptions C05_construct.
(** C18.  Narrowing a vector with fewer components than are disabled throws. *)
Theorem C18_too_short : forall (N : Num) (o : narrowing N) (x : list (nT N)),
  (List.length x < List.length (disIn o) -> narrowInput o x = Throw) /\ (List.length x < List.length (disOut o) -> narrowOutput o x = Throw).
Proof. exact @narrow_short. Qed.
Print Assumptions C18_too_short.
(** C20.  The inverse of the diagonal mapping divides, and its unmap multiplies; with a nonzero diagonal it undoes the mapping and the mapping undoes it. *)
Theorem C20_inverse_elements : forall dv x : list Qc, List.length x = List.length dv ->
  exists y, inv_map (N:=QcNum) dv x = Ret y /\ List.length y = List.length x /\ (forall i, i < List.length x -> nth i y 0%Qc = (nth i x 0 / nth i dv 0)%Qc) /\
    exists z, inv_unmap (N:=QcNum) dv x = Ret z /\ List.length z = List.length x /\ (forall i, i < List.length x -> nth i z 0%Qc = (nth i x 0 * nth i dv 0)%Qc).
Proof. exact inverse_mapping. Qed.
Print Assumptions C20_inverse_elements.
Theorem C20_inverse : forall dv x : list Qc, List.length x = List.length dv -> (forall b, In b dv -> b <> 0%Qc) ->
  (y <- diag_map (N:=QcNum) dv x ;; inv_map (N:=QcNum) dv y) = Ret x /\ (y <- inv_map (N:=QcNum) dv x ;; diag_map (N:=QcNum) dv y) = Ret x.
Proof. exact inverse_undoes. Qed.
Print Assumptions C20_inverse.
(** C48.  A line of the general console shows the attempt: its number, time, step size, error, flags, and the zero function that truncated it with the sign of the transition. *)
Theorem C48_line : forall (n : Z) (o : obs), let l := line_of n o in let a := ob_a o in
  gl_n l = n /\ gl_t l = ob_t o /\ gl_h l = pa_h a /\ gl_err l = pa_err a /\ gl_accepted l = pa_accepted a /\ gl_changed l = pa_changed a /\ gl_trunc l = pa_trunc a /\
  (forall i c, gl_cause l = Some (i, c) <-> pa_trunc a = true /\ pa_izf a = Some i /\
     (((0 < pa_type a)%Z /\ c = "+"%char) \/ ((pa_type a < 0)%Z /\ c = "-"%char) \/ (pa_type a = 0%Z /\ c = "?"%char))).
Proof. exact line_ok. Qed.
Print Assumptions C48_line.
(** C49.  A column is named x, v or z after its group, and numbered within it. *)
Theorem C49_names : forall (n2 : nat) (idx : list nat), (forall i, In i idx -> (Z.of_nat i <= 2147483647)%Z) ->
  Forall2 (fun i s => exists c t, s = String c t /\
     denotes t (Z.of_nat (if (n2 =? 0) || (i <? n2) then i else if i <? 2 * n2 then i - n2 else i - 2 * n2)) /\
     c = (if (n2 =? 0) || (i <? n2) then "x"%char else if i <? 2 * n2 then "v"%char else "z"%char)) idx (sol_header n2 idx).
Proof. exact header_names. Qed.
Print Assumptions C49_names.
(** C50.  An unsigned number is printed as the int with the same bits. *)
Theorem C50_format : forall i : Z, (0 <= i < 4294967296)%Z -> exists z, denotes (FormatInt i) z /\ (-2147483648 <= z <= 2147483647)%Z /\ (z = i \/ z = i - 4294967296)%Z.
Proof. exact as_int_ok. Qed.
Print Assumptions C50_format.
(** C53.  Sgn is -1 for negative numbers and 1 for all others. *)
Theorem C53_sgn : forall x : Q, ((0 <= x)%Q -> Sgn x = 1%Z) /\ ((x < 0)%Q -> Sgn x = (-1)%Z).
Proof. exact sgn_ok. Qed.
Print Assumptions C53_sgn.
