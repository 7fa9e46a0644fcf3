(** PropRop.v - vector and matrix operations in rounded arithmetic (C85): relative error u of every operation, gam k u = k u / (1 - k u). *)
From Coq Require Import List Arith QArith Qcanon Reals.
From Verif Require Import Base SMap SpModel SpSpec VecModel VecSpec ConvSpec StepSpec FpSpec LufSpec RopSpec RopFacts RopFacts2.
Import ListNotations.
Local Open Scope R_scope.

(** The scalar product of two vectors or views. *)
Theorem C85_dot : forall rnd u (m : mem (FNum rnd)) (a b : vexpr (FNum rnd)) (la lb : list R), relative rnd u -> 0 <= u ->
  well_formed m a -> well_formed m b -> (vsize m a <= vsize m b)%nat -> elements m a la -> elements m b lb -> INR (S (length la)) * u < 1 ->
  exists r : R, vdot m a b = Ret r /\ Rabs (r - rsum (length la) (fun i => cmpR la i * cmpR lb i)) <= gam (S (length la)) u * rsum (length la) (fun i => Rabs (cmpR la i * cmpR lb i)).
Proof. exact (fun rnd u m a b la lb H1 H2 => dot_rounded rnd u H1 H2 m a b la lb). Qed.
Print Assumptions C85_dot.
(** Norms of a vector or view: the maximum norm has no rounding error; the one norm and the square of the euclidean norm have a small relative error. *)
Theorem C85_norms : forall rnd u (m : mem (FNum rnd)) (e : vexpr (FNum rnd)) (l : list R), relative rnd u -> 0 <= u -> well_formed m e -> elements m e l -> INR (S (length l)) * u < 1 ->
  (exists r : R, vinfnorm m e = Ret r /\ (forall x, In x l -> Rabs x <= r) /\ ((l = [] /\ r = 0) \/ exists x, In x l /\ r = Rabs x)) /\
  (exists r : R, vonenorm m e = Ret r /\ Rabs (r - rsum (length l) (fun i => Rabs (cmpR l i))) <= gam (length l) u * rsum (length l) (fun i => Rabs (cmpR l i))) /\
  (exists r : R, veuclsq m e = Ret r /\ Rabs (r - rsum (length l) (fun i => cmpR l i * cmpR l i)) <= gam (S (length l)) u * rsum (length l) (fun i => cmpR l i * cmpR l i)).
Proof. exact (fun rnd u m e l H1 H2 => norms_rounded rnd u H1 H2 m e l). Qed.
Print Assumptions C85_norms.
(** Matrix times vector: the exact product with every matrix element changed relatively by at most gam (columns + 1); the elements of the matrix are what reading it gives. *)
Theorem C85_matrix_times_vector : forall rnd u (m : mems (FNum rnd)) (e : sexpr (FNum rnd)) (v : list R), relative rnd u -> 0 <= u ->
  mems_ok m -> in_range m e -> length v = snd (ssize m e) -> INR (S (length v)) * u < 1 ->
  exists w : list R, smulv m e v = Ret w /\ length w = fst (ssize m e) /\
    forall r, (r < fst (ssize m e))%nat -> Rabs (cmpR w r - rsum (length v) (fun c => sget m e (r, c) * cmpR v c)) <= gam (S (length v)) u * rsum (length v) (fun c => Rabs (sget m e (r, c) * cmpR v c)).
Proof. exact (fun rnd u m e v H1 H2 => smulv_rounded rnd u H1 H2 m e v). Qed.
Print Assumptions C85_matrix_times_vector.
Theorem C85_vector_times_square_matrix : forall rnd u (m : mems (FNum rnd)) (e : sexpr (FNum rnd)) (v : list R), relative rnd u -> 0 <= u ->
  mems_ok m -> in_range m e -> length v = fst (ssize m e) -> fst (ssize m e) = snd (ssize m e) -> INR (S (length v)) * u < 1 ->
  exists w : list R, svmul m v e = Ret w /\ length w = snd (ssize m e) /\
    forall c, (c < snd (ssize m e))%nat -> Rabs (cmpR w c - rsum (length v) (fun r => sget m e (r, c) * cmpR v r)) <= gam (S (length v)) u * rsum (length v) (fun r => Rabs (sget m e (r, c) * cmpR v r)).
Proof. exact (fun rnd u m e v H1 H2 => svmul_rounded rnd u H1 H2 m e v). Qed.
Print Assumptions C85_vector_times_square_matrix.
(** The same into given arrays, whose elements beyond the product stay. *)
Theorem C85_mulVectRight : forall rnd u (m : mems (FNum rnd)) (e : sexpr (FNum rnd)) (vs vd : list R), relative rnd u -> 0 <= u ->
  mems_ok m -> in_range m e -> (snd (ssize m e) <= length vs)%nat -> (fst (ssize m e) <= length vd)%nat -> INR (S (snd (ssize m e))) * u < 1 ->
  exists vd' : list R, mulVectRight (N:=FNum rnd) (fst (ssize m e)) (siter m e) vs vd = Ret vd' /\ length vd' = length vd /\
    (forall r, (r < fst (ssize m e))%nat -> Rabs (cmpR vd' r - rsum (snd (ssize m e)) (fun c => sget m e (r, c) * cmpR vs c)) <=
       gam (S (snd (ssize m e))) u * rsum (snd (ssize m e)) (fun c => Rabs (sget m e (r, c) * cmpR vs c))) /\
    (forall r, (fst (ssize m e) <= r)%nat -> cmpR vd' r = cmpR vd r).
Proof. exact (fun rnd u m e vs vd H1 H2 => mulr_rounded rnd u H1 H2 m e vs vd). Qed.
Print Assumptions C85_mulVectRight.
Theorem C85_mulVectLeft : forall rnd u (m : mems (FNum rnd)) (e : sexpr (FNum rnd)) (vs vd : list R), relative rnd u -> 0 <= u ->
  mems_ok m -> in_range m e -> (fst (ssize m e) <= length vs)%nat -> (snd (ssize m e) <= length vd)%nat -> INR (S (fst (ssize m e))) * u < 1 ->
  exists vd' : list R, mulVectLeft (N:=FNum rnd) (snd (ssize m e)) (siter m e) vs vd = Ret vd' /\ length vd' = length vd /\
    (forall c, (c < snd (ssize m e))%nat -> Rabs (cmpR vd' c - rsum (fst (ssize m e)) (fun r => sget m e (r, c) * cmpR vs r)) <=
       gam (S (fst (ssize m e))) u * rsum (fst (ssize m e)) (fun r => Rabs (sget m e (r, c) * cmpR vs r))) /\
    (forall c, (snd (ssize m e) <= c)%nat -> cmpR vd' c = cmpR vd c).
Proof. exact (fun rnd u m e vs vd H1 H2 => mull_rounded rnd u H1 H2 m e vs vd). Qed.
Print Assumptions C85_mulVectLeft.
(** Matrix times matrix; no zero is stored in the result. *)
Theorem C85_product : forall rnd u (m : mems (FNum rnd)) (a b : sexpr (FNum rnd)), relative rnd u -> 0 <= u ->
  mems_ok m -> row_capable m a = true -> in_range m a -> INR (S (snd (ssize m a))) * u < 1 ->
  exists res, sprod m a b = Ret res /\ fast res = false /\ ssz res = (fst (ssize m a), snd (ssize m b)) /\ row_major (sdat res) /\
    (forall r c, (r < fst (ssize m a))%nat -> (c < snd (ssize m b))%nat ->
       Rabs (get res (r, c) - rsum (snd (ssize m a)) (fun k => sget m a (r, k) * sget m b (k, c))) <=
         gam (S (snd (ssize m a))) u * rsum (snd (ssize m a)) (fun k => Rabs (sget m a (r, k) * sget m b (k, c)))) /\
    (forall r c x, In ((r, c), x) (sdat res) -> (r < fst (ssize m a))%nat /\ (c < snd (ssize m b))%nat /\ x <> 0).
Proof. exact (fun rnd u m a b H1 H2 => sprod_rounded rnd u H1 H2 m a b). Qed.
Print Assumptions C85_product.
(** Norms of a matrix or view, over its stored elements. *)
Theorem C85_matrix_norms : forall rnd u (m : mems (FNum rnd)) (e : sexpr (FNum rnd)), relative rnd u -> 0 <= u -> mems_ok m -> INR (S (length (siter m e))) * u < 1 ->
  ((forall p x, In (p, x) (siter m e) -> Rabs x <= sinfnorm m e) /\ ((siter m e = [] /\ sinfnorm m e = 0) \/ exists p x, In (p, x) (siter m e) /\ sinfnorm m e = Rabs x)) /\
  Rabs (sonenorm m e - asum (fun el => Rabs (snd el)) (siter m e)) <= gam (length (siter m e)) u * asum (fun el => Rabs (snd el)) (siter m e) /\
  Rabs (seuclsq m e - asum (fun el => snd el * snd el) (siter m e)) <= gam (S (length (siter m e))) u * asum (fun el => snd el * snd el) (siter m e).
Proof. exact (fun rnd u m e H1 H2 => snorms_rounded rnd u H1 H2 m e). Qed.
Print Assumptions C85_matrix_norms.
