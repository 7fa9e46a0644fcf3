(** LUModel.v - model of include/ode_num_int/lu/LUFactorizer.h and lu/util.h.
    Scalars: exact rationals.  Indices: nat (32-bit wrap-around of [index+1] is not modelled).
    Unchecked vector accesses that leave the array, and accesses to elements outside the stored profile
    (which violate the ASSERTs of L() and U()), are [UB]. *)
From Coq Require Import List Arith ZArith QArith Qcanon Bool.
Require Import Verif.Base Verif.LUSpec.
Import ListNotations.

(** A matrix as passed to setMatrix: the sequence of stored elements ((row,col),value). *)
Definition entries := list ((nat * nat) * Qc).

(** The index arrays m_p, m_q, m_s, m_al, m_au.  LUFactorizer.h 445-449. *)
Record layout := mkLayout {
  yp : list nat; yq : list nat; ys : list nat; yal : list nat; yau : list nat }.

(** Whole object state: layout, m_l, m_u, m_factorized.  LUFactorizer.h 445-453. *)
Record lu := mkLu { ulay : layout; ul : list Qc; uu : list Qc; ufact : bool }.

(** LUFactorizer(): LUFactorizer.h 23 *)
Definition lu_empty : lu := mkLu (mkLayout [] [] [] [] []) [] [] false.

(** LUFactorizer.h 44-53: number of rows / columns = largest index + 1 *)
Definition mat_nr (e : entries) : nat := fold_left (fun nr x => Nat.max nr (fst (fst x) + 1)) e 0%nat.
Definition mat_nc (e : entries) : nat := fold_left (fun nc x => Nat.max nc (snd (fst x) + 1)) e 0%nat.

(** LUFactorizer.h 60-77: the three arrays p (min col per row), q (min row per col), s (max col per row) *)
Definition setMin (l : list nat) (i v : nat) : list nat := upd l i (Nat.min (nth i l 0%nat) v).
Definition setMax (l : list nat) (i v : nat) : list nat := upd l i (Nat.max (nth i l 0%nat) v).
Definition scan_p (n : nat) (e : entries) : list nat :=
  fold_left (fun p x => setMin p (fst (fst x)) (snd (fst x))) e (repeat n n).
Definition scan_q (n : nat) (e : entries) : list nat :=
  fold_left (fun q x => setMin q (snd (fst x)) (fst (fst x))) e (repeat n n).
Definition scan_s (n : nat) (e : entries) : list nat :=
  fold_left (fun s x => setMax s (fst (fst x)) (snd (fst x))) e (repeat 0%nat n).

(** LUFactorizer.h 79-85: the stencil check (false = an exception is thrown) *)
Definition stencil_ok (n : nat) (p q : list nat) : bool :=
  forallb (fun i => Nat.ltb (nth i p 0%nat) n && Nat.ltb (nth i q 0%nat) n &&
                    Nat.leb (nth i p 0%nat) i && Nat.leb (nth i q 0%nat) i) (seq 0 n).

(** LUFactorizer.h 88-97: address sequence a[i+1] = a[i] + (i-p[i]) + d *)
Fixpoint addr_from (i acc d : nat) (p : list nat) : list nat :=
  match p with
  | [] => [acc]
  | pi :: t => acc :: addr_from (S i) (acc + (i - pi) + d) d t
  end.
Definition addr (d : nat) (p : list nat) : list nat := addr_from 0 0 d p.

(** L(r,c): LUFactorizer.h 343-348.  Reading outside r > c >= m_p[r] is UB (ASSERTs). *)
Definition getL (y : layout) (l : list Qc) (r c : nat) : Outcome Qc :=
  pr <- rd (yp y) r ;; a <- rd (yal y) r ;;
  if Nat.ltb c r && Nat.leb pr c then rd l (a + (c - pr)) else UB.
Definition putL (y : layout) (l : list Qc) (r c : nat) (v : Qc) : Outcome (list Qc) :=
  pr <- rd (yp y) r ;; a <- rd (yal y) r ;;
  if Nat.ltb c r && Nat.leb pr c then wr l (a + (c - pr)) v else UB.
(** U(r,c): LUFactorizer.h 370-375, 392-397 *)
Definition getU (y : layout) (u : list Qc) (r c : nat) : Outcome Qc :=
  qc <- rd (yq y) c ;; a <- rd (yau y) c ;;
  if Nat.leb r c && Nat.leb qc r then rd u (a + (r - qc)) else UB.
Definition putU (y : layout) (u : list Qc) (r c : nat) (v : Qc) : Outcome (list Qc) :=
  qc <- rd (yq y) c ;; a <- rd (yau y) c ;;
  if Nat.leb r c && Nat.leb qc r then wr u (a + (r - qc)) v else UB.

(** LUFactorizer.h 104-113: store one element of the matrix *)
Definition fill_step (y : layout) (lu : list Qc * list Qc) (x : (nat * nat) * Qc) : Outcome (list Qc * list Qc) :=
  let '((r, c), v) := x in
  if Nat.leb r c then u <- putU y (snd lu) r c v ;; Ret (fst lu, u)
  else l <- putL y (fst lu) r c v ;; Ret (l, snd lu).

(** setMatrix(begin,end): LUFactorizer.h 39-119.  The resulting object state on normal return. *)
Definition setMatrix (e : entries) : Outcome lu :=
  if negb (Nat.eqb (mat_nr e) (mat_nc e)) then Throw
  else
    let n := mat_nr e in
    let p := scan_p n e in let q := scan_q n e in let s := scan_s n e in
    if negb (stencil_ok n p q) then Throw
    else
      let al := addr 0 p in let au := addr 1 q in
      let y := mkLayout p q s al au in
      lu <- ofold (fill_step y) e (repeat 0%Qc (nth n al 0%nat), repeat 0%Qc (nth n au 0%nat)) ;;
      Ret (mkLu y (fst lu) (snd lu) false).

(** Object state left behind by setMatrix when it throws: LUFactorizer.h 50-51 leaves everything as it was,
    81-84 throws after m_p, m_q, m_s have been overwritten. *)
Definition setMatrix_after_throw (st : lu) (e : entries) : lu :=
  if negb (Nat.eqb (mat_nr e) (mat_nc e)) then st
  else
    let n := mat_nr e in
    mkLu (mkLayout (scan_p n e) (scan_q n e) (scan_s n e) (yal (ulay st)) (yau (ulay st))) (ul st) (uu st) (ufact st).

(** setLU / setL / setU: LUFactorizer.h 350-358, 377-385, 399-401.  [None] = returned false. *)
Definition setLU (y : layout) (lu : list Qc * list Qc) (r c : nat) (v : Qc) : Outcome (option (list Qc * list Qc)) :=
  if Nat.ltb c r then
    pr <- rd (yp y) r ;;
    if Nat.leb pr c then a <- rd (yal y) r ;; l <- wr (fst lu) (a + (c - pr)) v ;; Ret (Some (l, snd lu))
    else Ret None
  else
    qc <- rd (yq y) c ;;
    if Nat.leb qc r then a <- rd (yau y) c ;; u <- wr (snd lu) (a + (r - qc)) v ;; Ret (Some (fst lu, u))
    else Ret None.

Fixpoint fast_fill (y : layout) (e : entries) (lu : list Qc * list Qc) : Outcome (option (list Qc * list Qc)) :=
  match e with
  | [] => Ret (Some lu)
  | ((r, c), v) :: t =>
      o <- setLU y lu r c v ;;
      match o with Some lu' => fast_fill y t lu' | None => Ret None end
  end.

(** setMatrixFast: LUFactorizer.h 126-150 (CTM_MATH_LU_USE_MX_FAST_CACHE is not defined, line 13) *)
Definition setMatrixFast (st : lu) (e : entries) : Outcome lu :=
  o <- fast_fill (ulay st) e (repeat 0%Qc (length (ul st)), repeat 0%Qc (length (uu st))) ;;
  match o with
  | Some (l, u) => Ret (mkLu (ulay st) l u false)
  | None => setMatrix e
  end.

(** factorize, one row of L: LUFactorizer.h 415-425.  The pointer walk prow/pcol is written as L(i,k), U(k,c). *)
Definition fact_L_elem (y : layout) (u : list Qc) (i c : nat) (l : list Qc) : Outcome (list Qc) :=
  pi <- rd (yp y) i ;; qc <- rd (yq y) c ;;
  l1 <- ofor (Nat.max pi qc) c (fun k l' =>
          v <- getL y l' i c ;; a <- getL y l' i k ;; b <- getU y u k c ;;
          putL y l' i c (v - a * b)%Qc) l ;;
  v <- getL y l1 i c ;; d <- getU y u c c ;;
  putL y l1 i c (v / d)%Qc.
Definition fact_L_row (y : layout) (u : list Qc) (i : nat) (l : list Qc) : Outcome (list Qc) :=
  pi <- rd (yp y) i ;; ofor pi i (fact_L_elem y u i) l.

(** factorize, one column of U above the diagonal (LUFactorizer.h 427-436) and the diagonal element (438-441),
    which runs the same subtraction loop with r = i. *)
Definition fact_U_elem (y : layout) (l : list Qc) (i r : nat) (u : list Qc) : Outcome (list Qc) :=
  pr <- rd (yp y) r ;; qi <- rd (yq y) i ;;
  ofor (Nat.max pr qi) r (fun k u' =>
    v <- getU y u' r i ;; a <- getL y l r k ;; b <- getU y u' k i ;;
    putU y u' r i (v - a * b)%Qc) u.
Definition fact_U_col (y : layout) (l : list Qc) (i : nat) (u : list Qc) : Outcome (list Qc) :=
  qi <- rd (yq y) i ;;
  u1 <- ofor qi i (fact_U_elem y l i) u ;;
  fact_U_elem y l i i u1.

(** factorize: LUFactorizer.h 407-443 *)
Definition fact_step (y : layout) (i : nat) (lu : list Qc * list Qc) : Outcome (list Qc * list Qc) :=
  l <- fact_L_row y (snd lu) i (fst lu) ;;
  u <- fact_U_col y l i (snd lu) ;;
  Ret (l, u).
Definition factorize (st : lu) : Outcome lu :=
  if ufact st then Ret st
  else
    r <- ofor 0 (length (yp (ulay st))) (fact_step (ulay st)) (ul st, uu st) ;;
    Ret (mkLu (ulay st) (fst r) (snd r) true).

(** solve: LUFactorizer.h 157-179.  [rhs] is the caller's array; index n-1 .. 0 (for n = 0 the loop
    [i=n-1; i!=~0] does not execute). *)
Definition fwd_row (y : layout) (l : list Qc) (i : nat) (x : list Qc) : Outcome (list Qc) :=
  pi <- rd (yp y) i ;;
  ofor pi i (fun k x' =>
    xi <- rd x' i ;; a <- getL y l i k ;; xk <- rd x' k ;; wr x' i (xi - a * xk)%Qc) x.
Definition bwd_row (y : layout) (u : list Qc) (i : nat) (x : list Qc) : Outcome (list Qc) :=
  si <- rd (ys y) i ;;
  x1 <- ofor (S i) (S si) (fun k x' =>
          qk <- rd (yq y) k ;;
          if Nat.leb qk i then
            xi <- rd x' i ;; a <- getU y u i k ;; xk <- rd x' k ;; wr x' i (xi - a * xk)%Qc
          else Ret x') x ;;
  xi <- rd x1 i ;; d <- getU y u i i ;; wr x1 i (xi / d)%Qc.
Definition solve (st : lu) (rhs : list Qc) : Outcome (lu * list Qc) :=
  st1 <- factorize st ;;
  let y := ulay st1 in
  let n := length (yp y) in
  x1 <- ofor 1 n (fwd_row y (ul st1)) rhs ;;
  x2 <- ofor_down n (bwd_row y (uu st1)) x1 ;;
  Ret (st1, x2).

(** safeL: LUFactorizer.h 366-368 *)
Definition safeL (y : layout) (l : list Qc) (r c : nat) : Outcome Qc :=
  if Nat.eqb r c then Ret 1%Qc else getL y l r c.

(** elementAt: LUFactorizer.h 189-214 *)
Definition elementAt (st : lu) (r c : nat) : Outcome Qc :=
  let y := ulay st in
  pr <- rd (yp y) r ;; qc <- rd (yq y) c ;;
  if ufact st then
    if (Nat.ltb c r && Nat.leb pr c) || (Nat.leb r c && Nat.leb qc r) then
      ofor (Nat.max pr qc) (S (Nat.min r c)) (fun k acc =>
        a <- safeL y (ul st) r k ;; b <- getU y (uu st) k c ;; Ret (acc + a * b)%Qc) 0%Qc
    else Ret 0%Qc
  else if Nat.ltb c r then
    (if Nat.leb pr c then getL y (ul st) r c else Ret 0%Qc)
  else
    (if Nat.leb qc r then getU y (uu st) r c else Ret 0%Qc).

(** secantUpdateHart, one row: LUFactorizer.h 248-285.  State: (l, u, r). *)
Definition hart_row (y : layout) (s yv : list Qc) (i : nat) (st : list Qc * list Qc * list Qc)
  : Outcome (list Qc * list Qc * list Qc) :=
  let '(l, u, r) := st in
  pi <- rd (yp y) i ;; si <- rd (ys y) i ;;
  yi <- rd yv i ;;
  ba1 <- ofor pi i (fun k ba =>
           rk <- rd r k ;; a <- getL y l i k ;;
           Ret (fst ba - a * rk, snd ba + rk * rk)%Qc) (yi, 0%Qc) ;;
  ba2 <- ofor i (S si) (fun k ba =>
           qk <- rd (yq y) k ;;
           if Nat.leb qk i then
             sk <- rd s k ;; b <- getU y u i k ;;
             Ret (fst ba - b * sk, snd ba + sk * sk)%Qc
           else Ret ba) ba1 ;;
  let '(beta, aa) := ba2 in
  if Qceqb beta 0 then
    ri <- ofor i (S si) (fun k acc =>
            qk <- rd (yq y) k ;;
            if Nat.leb qk i then
              sk <- rd s k ;; b <- getU y u i k ;; Ret (acc + b * sk)%Qc
            else Ret acc) 0%Qc ;;
    r' <- wr r i ri ;;
    Ret (l, u, r')
  else
    let factor := (beta / aa)%Qc in
    l' <- ofor pi i (fun k l0 =>
            rk <- rd r k ;; a <- getL y l0 i k ;; putL y l0 i k (a + rk * factor)%Qc) l ;;
    ur <- ofor i (S si) (fun k ur =>
            qk <- rd (yq y) k ;;
            if Nat.leb qk i then
              sk <- rd s k ;; b <- getU y (fst ur) i k ;;
              let b' := (b + sk * factor)%Qc in
              u' <- putU y (fst ur) i k b' ;;
              Ret (u', (snd ur + b' * sk)%Qc)
            else Ret ur) (u, 0%Qc) ;;
    r' <- wr r i (snd ur) ;;
    Ret (l', fst ur, r').

(** secantUpdateHart: LUFactorizer.h 242-286 ([m_r] is scratch storage, resized to n) *)
Definition secantUpdateHart (st : lu) (s yv : list Qc) : Outcome lu :=
  st1 <- factorize st ;;
  let n := length (yp (ulay st1)) in
  res <- ofor 0 n (hart_row (ulay st1) s yv) (ul st1, uu st1, repeat 0%Qc n) ;;
  let '(l, u, _) := res in
  Ret (mkLu (ulay st1) l u true).

(** secantUpdateProportional, one row: LUFactorizer.h 294-332 *)
Definition prop_row (y : layout) (s yv : list Qc) (i : nat) (st : list Qc * list Qc * list Qc)
  : Outcome (list Qc * list Qc * list Qc) :=
  let '(l, u, r) := st in
  pi <- rd (yp y) i ;; si <- rd (ys y) i ;;
  beta <- rd yv i ;;
  cl <- ofor pi i (fun k acc =>
          rk <- rd r k ;; a <- getL y l i k ;; Ret (acc + a * rk)%Qc) 0%Qc ;;
  cu <- ofor i (S si) (fun k acc =>
          qk <- rd (yq y) k ;;
          if Nat.leb qk i then
            sk <- rd s k ;; b <- getU y u i k ;; Ret (acc + b * sk)%Qc
          else Ret acc) 0%Qc ;;
  let c := (cl + cu)%Qc in
  if Qceqb beta 0 then r' <- wr r i cu ;; Ret (l, u, r')
  else if Qceqb c 0 then Throw
  else
    let factor := (beta / c + 1)%Qc in
    l' <- ofor pi i (fun k l0 => a <- getL y l0 i k ;; putL y l0 i k (a * factor)%Qc) l ;;
    ur <- ofor i (S si) (fun k ur =>
            qk <- rd (yq y) k ;;
            if Nat.leb qk i then
              sk <- rd s k ;; b <- getU y (fst ur) i k ;;
              let b' := (b * factor)%Qc in
              u' <- putU y (fst ur) i k b' ;;
              Ret (u', (snd ur + b' * sk)%Qc)
            else Ret ur) (u, 0%Qc) ;;
    r' <- wr r i (snd ur) ;;
    Ret (l', fst ur, r').

(** secantUpdateProportional: LUFactorizer.h 288-333 *)
Definition secantUpdateProportional (st : lu) (s yv : list Qc) : Outcome lu :=
  st1 <- factorize st ;;
  let n := length (yp (ulay st1)) in
  res <- ofor 0 n (prop_row (ulay st1) s yv) (ul st1, uu st1, repeat 0%Qc n) ;;
  let '(l, u, _) := res in
  Ret (mkLu (ulay st1) l u true).

(** luToMatrix: lu/util.h 13-24.  Result as the sequence of non-zero elements in row-major order. *)
Definition luToMatrix (st : lu) : Outcome entries :=
  let y := ulay st in
  let n := length (yp y) in
  ofor 0 n (fun r acc =>
    pr <- rd (yp y) r ;; sr <- rd (ys y) r ;;
    ofor pr (S sr) (fun c acc' =>
      x <- elementAt st r c ;;
      Ret (if Qceqb x 0 then acc' else acc' ++ [((r, c), x)])) acc) [].

(** * Client programs: call sequences used to state the properties (they model no source line) *)
(** One use of the factorizer: refill by setMatrixFast, then solve for a right-hand side. *)
Definition refill_solve (st : lu) (x : entries * list Qc) : Outcome (lu * list Qc) :=
  st1 <- setMatrixFast st (fst x) ;; solve st1 (snd x).
Fixpoint refill_run (st : lu) (h : list (entries * list Qc)) : Outcome (lu * list (list Qc)) :=
  match h with
  | [] => Ret (st, [])
  | x :: t => r <- refill_solve st x ;; rest <- refill_run (fst r) t ;; Ret (fst rest, snd r :: snd rest)
  end.
(** successive Hart updates *)
Fixpoint hart_run (st : lu) (h : list (list Qc * list Qc)) : Outcome lu :=
  match h with
  | [] => Ret st
  | (s, y) :: t => st' <- secantUpdateHart st s y ;; hart_run st' t
  end.

(** factors as read from the stored arrays *)
Definition has_factors (st : lu) (e : entries) (n : nat) (L U : nat -> nat -> Qc) : Prop :=
  (forall r c, (c < r < n)%nat -> in_skyline e r c -> getL (ulay st) (ul st) r c = Ret (L r c)) /\
  (forall r c, (r <= c < n)%nat -> in_skyline e r c -> getU (ulay st) (uu st) r c = Ret (U r c)) /\
  (forall r c, (r < n)%nat -> (c < n)%nat -> ~ in_skyline e r c -> ((c < r)%nat -> L r c = 0%Qc) /\ ((r <= c)%nat -> U r c = 0%Qc)).
