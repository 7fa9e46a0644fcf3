(** LufModel.v - LUFactorizer::setMatrix, factorize and solve (include/ode_num_int/lu/LUFactorizer.h) over any arithmetic.
    The same program as LUModel.v, which it becomes for exact rationals (C84_same_program); the index arithmetic (layout, stencil_ok, addr, setMin, setMax) is shared.
    Indices: nat.  Accesses outside the stored profile or the arrays are [UB]. *)
From Coq Require Import List Arith ZArith QArith Qcanon Bool.
Require Import Verif.Base Verif.LUSpec Verif.LUModel.
Import ListNotations.

(** A matrix as passed to setMatrix: the sequence of stored elements ((row,col),value). *)
Definition entriesN (N : Num) := list ((nat * nat) * nT N).

(** Whole object state: layout, m_l, m_u, m_factorized.  LUFactorizer.h 445-453. *)
Record luN (N : Num) := mkLuN { nlay : layout; nl : list (nT N); nu : list (nT N); nfact : bool }.
Arguments mkLuN {N}. Arguments nlay {N}. Arguments nl {N}. Arguments nu {N}. Arguments nfact {N}.


Section Gen.
Context {N : Num}.
Local Notation T := (nT N).

(** LUFactorizer.h 44-53: number of rows / columns = largest index + 1 *)
Definition mat_nrN (e : entriesN N) : nat := fold_left (fun nr x => Nat.max nr (fst (fst x) + 1)) e 0%nat.
Definition mat_ncN (e : entriesN N) : nat := fold_left (fun nc x => Nat.max nc (snd (fst x) + 1)) e 0%nat.

(** LUFactorizer.h 60-77: the three arrays p (min col per row), q (min row per col), s (max col per row) *)
Definition scan_pN (n : nat) (e : entriesN N) : list nat :=
  fold_left (fun p x => setMin p (fst (fst x)) (snd (fst x))) e (repeat n n).
Definition scan_qN (n : nat) (e : entriesN N) : list nat :=
  fold_left (fun q x => setMin q (snd (fst x)) (fst (fst x))) e (repeat n n).
Definition scan_sN (n : nat) (e : entriesN N) : list nat :=
  fold_left (fun s x => setMax s (fst (fst x)) (snd (fst x))) e (repeat 0%nat n).

(** L(r,c): LUFactorizer.h 343-348.  Reading outside r > c >= m_p[r] is UB (ASSERTs). *)
Definition getLN (y : layout) (l : list T) (r c : nat) : Outcome T :=
  pr <- rd (yp y) r ;; a <- rd (yal y) r ;;
  if Nat.ltb c r && Nat.leb pr c then rd l (a + (c - pr)) else UB.
Definition putLN (y : layout) (l : list T) (r c : nat) (v : T) : Outcome (list T) :=
  pr <- rd (yp y) r ;; a <- rd (yal y) r ;;
  if Nat.ltb c r && Nat.leb pr c then wr l (a + (c - pr)) v else UB.
(** U(r,c): LUFactorizer.h 370-375, 392-397 *)
Definition getUN (y : layout) (u : list T) (r c : nat) : Outcome T :=
  qc <- rd (yq y) c ;; a <- rd (yau y) c ;;
  if Nat.leb r c && Nat.leb qc r then rd u (a + (r - qc)) else UB.
Definition putUN (y : layout) (u : list T) (r c : nat) (v : T) : Outcome (list T) :=
  qc <- rd (yq y) c ;; a <- rd (yau y) c ;;
  if Nat.leb r c && Nat.leb qc r then wr u (a + (r - qc)) v else UB.

(** LUFactorizer.h 104-113: store one element of the matrix *)
Definition fill_stepN (y : layout) (lu : list T * list T) (x : (nat * nat) * T) : Outcome (list T * list T) :=
  let '((r, c), v) := x in
  if Nat.leb r c then u <- putUN y (snd lu) r c v ;; Ret (fst lu, u)
  else l <- putLN y (fst lu) r c v ;; Ret (l, snd lu).

(** setMatrix(begin,end): LUFactorizer.h 39-119.  The resulting object state on normal return. *)
Definition setMatrixN (e : entriesN N) : Outcome (luN N) :=
  if negb (Nat.eqb (mat_nrN e) (mat_ncN e)) then Throw
  else
    let n := mat_nrN e in
    let p := scan_pN n e in let q := scan_qN n e in let s := scan_sN n e in
    if negb (stencil_ok n p q) then Throw
    else
      let al := addr 0 p in let au := addr 1 q in
      let y := mkLayout p q s al au in
      lu <- ofold (fill_stepN y) e (repeat (n0 N) (nth n al 0%nat), repeat (n0 N) (nth n au 0%nat)) ;;
      Ret (mkLuN y (fst lu) (snd lu) false).

(** factorize, one row of L: LUFactorizer.h 415-425.  The pointer walk prow/pcol is written as L(i,k), U(k,c). *)
Definition fact_L_elemN (y : layout) (u : list T) (i c : nat) (l : list T) : Outcome (list T) :=
  pi <- rd (yp y) i ;; qc <- rd (yq y) c ;;
  l1 <- ofor (Nat.max pi qc) c (fun k l' =>
          v <- getLN y l' i c ;; a <- getLN y l' i k ;; b <- getUN y u k c ;;
          putLN y l' i c (nsub N v (nmul N a b))) l ;;
  v <- getLN y l1 i c ;; d <- getUN y u c c ;;
  putLN y l1 i c (ndiv N v d).
Definition fact_L_rowN (y : layout) (u : list T) (i : nat) (l : list T) : Outcome (list T) :=
  pi <- rd (yp y) i ;; ofor pi i (fact_L_elemN y u i) l.

(** factorize, one column of U above the diagonal (LUFactorizer.h 427-436) and the diagonal element (438-441),
    which runs the same subtraction loop with r = i. *)
Definition fact_U_elemN (y : layout) (l : list T) (i r : nat) (u : list T) : Outcome (list T) :=
  pr <- rd (yp y) r ;; qi <- rd (yq y) i ;;
  ofor (Nat.max pr qi) r (fun k u' =>
    v <- getUN y u' r i ;; a <- getLN y l r k ;; b <- getUN y u' k i ;;
    putUN y u' r i (nsub N v (nmul N a b))) u.
Definition fact_U_colN (y : layout) (l : list T) (i : nat) (u : list T) : Outcome (list T) :=
  qi <- rd (yq y) i ;;
  u1 <- ofor qi i (fact_U_elemN y l i) u ;;
  fact_U_elemN y l i i u1.

(** factorize: LUFactorizer.h 407-443 *)
Definition fact_stepN (y : layout) (i : nat) (lu : list T * list T) : Outcome (list T * list T) :=
  l <- fact_L_rowN y (snd lu) i (fst lu) ;;
  u <- fact_U_colN y l i (snd lu) ;;
  Ret (l, u).
Definition factorizeN (st : luN N) : Outcome (luN N) :=
  if nfact st then Ret st
  else
    r <- ofor 0 (length (yp (nlay st))) (fact_stepN (nlay st)) (nl st, nu st) ;;
    Ret (mkLuN (nlay st) (fst r) (snd r) true).

(** solve: LUFactorizer.h 157-179.  [rhs] is the caller's array; index n-1 .. 0 (for n = 0 the loop
    [i=n-1; i!=~0] does not execute). *)
Definition fwd_rowN (y : layout) (l : list T) (i : nat) (x : list T) : Outcome (list T) :=
  pi <- rd (yp y) i ;;
  ofor pi i (fun k x' =>
    xi <- rd x' i ;; a <- getLN y l i k ;; xk <- rd x' k ;; wr x' i (nsub N xi (nmul N a xk))) x.
Definition bwd_rowN (y : layout) (u : list T) (i : nat) (x : list T) : Outcome (list T) :=
  si <- rd (ys y) i ;;
  x1 <- ofor (S i) (S si) (fun k x' =>
          qk <- rd (yq y) k ;;
          if Nat.leb qk i then
            xi <- rd x' i ;; a <- getUN y u i k ;; xk <- rd x' k ;; wr x' i (nsub N xi (nmul N a xk))
          else Ret x') x ;;
  xi <- rd x1 i ;; d <- getUN y u i i ;; wr x1 i (ndiv N xi d).
Definition solveN (st : luN N) (rhs : list T) : Outcome (luN N * list T) :=
  st1 <- factorizeN st ;;
  let y := nlay st1 in
  let n := length (yp y) in
  x1 <- ofor 1 n (fwd_rowN y (nl st1)) rhs ;;
  x2 <- ofor_down n (bwd_rowN y (nu st1)) x1 ;;
  Ret (st1, x2).
End Gen.
