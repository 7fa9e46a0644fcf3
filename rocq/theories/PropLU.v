(** PropLU.v - properties C06..C09 of LUFactorizer (exact arithmetic).
    Statements only; proofs are in LUFacts*.v.  Vocabulary: LUSpec.v (mval, stored, acceptable, in_skyline,
    unit_lower, upper, is_product, leading_nonsingular, fill_covered, solves) and the model LUModel.v. *)
From Coq Require Import List Arith Lia ZArith QArith Qcanon Bool.
Require Import Verif.Base Verif.BaseFacts Verif.LUModel Verif.LUSpec Verif.LUFacts5 Verif.LUFacts6.
Import ListNotations.

(** ** C06 *)
(** Exactly the matrices with every row reaching left to the diagonal and every column reaching up to it are
    accepted; all others are reported by an exception (never undefined behaviour). *)
Theorem C06_setMatrix_accepts : forall e, distinct_keys e ->
  ((exists st, setMatrix e = Ret st) <-> exists n, acceptable e n).
Proof. exact setMatrix_accepts_iff. Qed.
Print Assumptions C06_setMatrix_accepts.

Theorem C06_setMatrix_rejects : forall e, distinct_keys e -> ~ (exists n, acceptable e n) -> setMatrix e = Throw.
Proof. exact setMatrix_throws_otherwise. Qed.
Print Assumptions C06_setMatrix_rejects.

(** elementAt reads back the matrix before and after the decomposition, and the stored factors multiply to it. *)
Theorem C06_lu_reproduces_matrix : forall e n st, distinct_keys e -> acceptable e n -> setMatrix e = Ret st ->
  (forall r c, (r < n)%nat -> (c < n)%nat -> elementAt st r c = Ret (mval e r c)) /\
  (leading_nonsingular n (mval e) -> exists st' L U,
     factorize st = Ret st' /\
     unit_lower n L /\ upper n U /\ is_product n L U (mval e) /\ has_factors st' e n L U /\
     (forall r c, (r < n)%nat -> (c < n)%nat -> elementAt st' r c = Ret (mval e r c))).
Proof. exact lu_reproduces. Qed.
Print Assumptions C06_lu_reproduces_matrix.

(** luToMatrix returns a matrix with the same elements. *)
Theorem C06_luToMatrix : forall e n st, distinct_keys e -> acceptable e n -> setMatrix e = Ret st ->
  exists m, luToMatrix st = Ret m /\
    (forall r c, (r < n)%nat -> (c < n)%nat -> mval m r c = mval e r c) /\
    (forall r c v, In ((r, c), v) m -> (r < n)%nat /\ (c < n)%nat /\ v <> 0%Qc).
Proof. exact lu_to_matrix. Qed.
Print Assumptions C06_luToMatrix.

(** reading outside the matrix is undefined behaviour *)
Theorem C06_elementAt_out_of_range : forall st e n r c, distinct_keys e -> acceptable e n -> setMatrix e = Ret st ->
  (n <= r \/ n <= c)%nat -> elementAt st r c = UB.
Proof. exact elementAt_out. Qed.
Print Assumptions C06_elementAt_out_of_range.

(** ** C07 *)
(** solve is right for every right-hand side exactly when the fill-in of U stays within the stored row extents. *)
Theorem C07_solve_correct_iff : forall e n st, distinct_keys e -> acceptable e n -> setMatrix e = Ret st ->
  leading_nonsingular n (mval e) ->
  (fill_covered e (mval e) n <->
   forall b, length b = n -> exists st' x, solve st b = Ret (st', x) /\ length x = n /\
     solves n (mval e) (vfun x) (vfun b)).
Proof. exact lu_solve_iff. Qed.
Print Assumptions C07_solve_correct_iff.

(** Sufficient conditions on the stencil alone. *)
Theorem C07_solve_correct_stencil : forall e n st b, distinct_keys e -> acceptable e n -> setMatrix e = Ret st ->
  leading_nonsingular n (mval e) ->
  stencil_covers e n \/ (forall r c, stored e r c -> (r <= c)%nat) ->
  length b = n ->
  exists st' x, solve st b = Ret (st', x) /\ length x = n /\ solves n (mval e) (vfun x) (vfun b).
Proof. exact lu_solve_stencil. Qed.
Print Assumptions C07_solve_correct_stencil.

Theorem C07_full_stencil_covers : forall e n,
  (forall r c, (r < n)%nat -> (c < n)%nat -> stored e r c) -> stencil_covers e n.
Proof. exact full_covers. Qed.
Print Assumptions C07_full_stencil_covers.
Theorem C07_banded_stencil_covers : forall e n w, banded e n w -> stencil_covers e n.
Proof. exact banded_covers. Qed.
Print Assumptions C07_banded_stencil_covers.
Theorem C07_lower_stencil_covers : forall e n, (forall r c, stored e r c -> (c <= r)%nat) -> stencil_covers e n.
Proof. exact lower_covers. Qed.
Print Assumptions C07_lower_stencil_covers.

(** ** C08 *)
Theorem C08_fast_refill_same_decomposition : forall a b n sa,
  distinct_keys a -> acceptable a n -> setMatrix a = Ret sa ->
  distinct_keys b -> (forall r c, stored b r c -> in_skyline a r c) ->
  forall st, (st = sa \/ (leading_nonsingular n (mval a) /\ factorize sa = Ret st)) ->
  exists st', setMatrixFast st b = Ret st' /\
    (forall r c, (r < n)%nat -> (c < n)%nat -> elementAt st' r c = Ret (mval b r c)) /\
    (leading_nonsingular n (mval b) ->
      exists st'' L U, factorize st' = Ret st'' /\ unit_lower n L /\ upper n U /\ is_product n L U (mval b) /\
        has_factors st'' a n L U /\
        (acceptable b n -> forall sb, setMatrix b = Ret sb -> exists sb', factorize sb = Ret sb' /\ has_factors sb' b n L U)).
Proof. exact fast_same. Qed.
Print Assumptions C08_fast_refill_same_decomposition.

Theorem C08_fast_refill_fallback : forall a b n sa,
  distinct_keys a -> acceptable a n -> setMatrix a = Ret sa ->
  (forall r c, stored b r c -> (r < n)%nat /\ (c < n)%nat) ->
  (exists r c, stored b r c /\ ~ in_skyline a r c) ->
  setMatrixFast sa b = setMatrix b.
Proof. exact fast_fallback. Qed.
Print Assumptions C08_fast_refill_fallback.

(** Any history of "refill with a matrix of the profile of a, then solve": every answer is right. *)
Theorem C08_refill_history : forall a n st0 h, distinct_keys a -> acceptable a n -> setMatrix a = Ret st0 ->
  (forall b rhs, In (b, rhs) h -> distinct_keys b /\ (forall r c, stored b r c -> in_skyline a r c) /\
     leading_nonsingular n (mval b) /\ fill_covered a (mval b) n /\ length rhs = n) ->
  exists st' xs, refill_run st0 h = Ret (st', xs) /\
    Forall2 (fun brhs x => length x = n /\ solves n (mval (fst brhs)) (vfun x) (vfun (snd brhs))) h xs.
Proof. exact refill_history. Qed.
Print Assumptions C08_refill_history.

(** ** C09 *)
(** After any number of Hart updates the matrix represented satisfies the secant equation of the last update
    and is zero outside the profile. *)
Theorem C09_hart_secant : forall a n st0 h, distinct_keys a -> acceptable a n -> setMatrix a = Ret st0 ->
  leading_nonsingular n (mval a) -> fill_covered a (mval a) n ->
  (forall i, (i < n)%nat -> exists c, (i <= c)%nat /\ stored a i c) ->
  h <> [] ->
  (forall s y, In (s, y) h -> length s = n /\ length y = n /\ hart_visible a n s) ->
  exists st' A', hart_run st0 h = Ret st' /\
    (forall r c, (r < n)%nat -> (c < n)%nat -> elementAt st' r c = Ret (A' r c)) /\
    (forall r c, (r < n)%nat -> (c < n)%nat -> ~ in_skyline a r c -> A' r c = 0%Qc) /\
    (forall h0 s y, h = h0 ++ [(s, y)] -> solves n A' (vfun s) (vfun y)).
Proof. exact hart_history. Qed.
Print Assumptions C09_hart_secant.
(** One proportional update: it throws (only if y is not zero), or every row of both factors is multiplied by
    y_i / c_i + 1, where c_i is the i-th component of the product by s of the matrix with the rows above updated and
    row i not yet; so the updated matrix maps s to c + y, y being the increment. *)
Theorem C09_proportional : forall a n st0 s y, distinct_keys a -> acceptable a n -> setMatrix a = Ret st0 ->
  leading_nonsingular n (mval a) -> fill_covered a (mval a) n ->
  (forall i, (i < n)%nat -> exists c, (i <= c)%nat /\ stored a i c) ->
  length s = n -> length y = n ->
  (secantUpdateProportional st0 s y = Throw /\ exists i, (i < n)%nat /\ vfun y i <> 0%Qc) \/
  exists st' A' L U L' U', secantUpdateProportional st0 s y = Ret st' /\
    (forall r c, (r < n)%nat -> (c < n)%nat -> elementAt st' r c = Ret (A' r c)) /\
    unit_lower n L /\ upper n U /\ is_product n L U (mval a) /\ unit_lower n L' /\ upper n U' /\ is_product n L' U' A' /\
    (forall i, (i < n)%nat -> proportional_row n (vfun s) (vfun y) L U L' U' i) /\
    (forall i, (i < n)%nat -> qsum n (fun c => A' i c * vfun s c) = vfun y i + row_image n (vfun s) L U U' i)%Qc.
Proof. exact proportional. Qed.
Print Assumptions C09_proportional.
