(** BroModel.v - the quasi-Newton descent directions.
    Models /repo/include/ode_num_int/alg/JacobianBroydenUpdateNewtonDescentDirection.h,
    JacobianFakeBroydenUpdateNewtonDescentDirection.h, JacobianLazyFakeBroydenUpdateNewtonDescentDirection.h and
    JacobianHartUpdateNewtonDescentDirection.h, on top of the sparse matrices (SpModel.v), the Jacobian providers (JacModel.v)
    and LUFactorizer (LUModel.v).
    The Jacobian J is a reference to the matrix inside the provider, so updates of J change the provider.
    Simplifications: a direction interrupted by an exception leaves a partly updated state, which is not modelled; observers and
    timing statistics are left out; the directions use exact rationals, where a quotient by zero is zero (the theorems exclude
    it; the updates themselves are generic in the arithmetic, so that not-a-number can be followed); the parameter
    lazy_iterations is a model parameter; unsigned int is [nat]. *)
From Coq Require Import List Arith Bool QArith Qcanon.
From Verif Require Import Base SMap SpModel MapModel JacModel VecModel VOps LUModel NewtModel.
Import ListNotations.
Local Open Scope nat_scope.

Section Upd.
Context {N : Num}.
Notation T := (nT N).
Notation vec := (list T).

(** V dx = x0 - m_xprev;  V df = f0 - m_fprev;  V left = df - J*dx;  left *= 1 / dx.euclideanNormSquare();
    Broyden 54-57, FakeBroyden 52-55, LazyFakeBroyden 68-71.  Returns (dx, left). *)
Definition secant_parts (J : smat N) (x0 f0 xp fp : vec) : Outcome (vec * vec) :=
  dx <- lsub x0 xp ;;
  df <- lsub f0 fp ;;
  Jdx <- smulv [J] (SW 0) dx ;;
  l <- lsub df Jdx ;;
  Ret (dx, lscale l (ndiv N (n1 N) (lnorm2 dx))).

(** Broyden 60-65: every position whose increment is not zero; J.at() of the array-backed matrix throws if nothing is stored there *)
Definition broyden_elems (n : nat) (left dx : vec) (J : smat N) : Outcome (smat N) :=
  ofor 0 n (fun i J =>
    ofor 0 n (fun j J =>
      l <- rdat left i ;; d <- rdat dx j ;;
      let x := nmul N l d in
      if neqb N x (n0 N) then Ret J else at_upd J (i, j) (fun y => nadd N y x)) J) J.

(** FakeBroyden 58-59, LazyFakeBroyden 74-75: only the stored elements *)
Fixpoint fake_data (left dx : vec) (d : list (key * T)) : Outcome (list (key * T)) :=
  match d with
  | [] => Ret []
  | (k, v) :: t =>
    l <- rdat left (fst k) ;; e <- rdat dx (snd k) ;;
    t' <- fake_data left dx t ;;
    Ret ((k, nadd N v (nmul N l e)) :: t')
  end.
Definition fake_elems (left dx : vec) (J : smat N) : Outcome (smat N) :=
  d <- fake_data left dx (sdat J) ;; Ret (mkS (fast J) (ssz J) d).

(** J += m_dJ (LazyFakeBroyden 78): SparseMatrixTemplate::operator+= 916-923 for two different objects *)
Definition add_matrix (J D : smat N) : Outcome (smat N) :=
  ofold (fun J e => at_upd J (fst e) (fun y => nadd N y (snd e))) (sdat D) J.

(** SparseMatrixFastData::empty 290-292 *)
Definition mat_empty (J : smat N) : bool := match sdat J with [] => true | _ => false end.
End Upd.

(** * Jacobian providers *)
(** The part of JacobianProvider (interfaces/JacobianProvider.h 32-41) that the directions use; P is the provider's state.
    [jp_set] is a change of the element values through the reference returned by jacobian(). *)
Record jprov (P : Type) : Type := mkJP {
  jp_J : P -> smat QcNum;
  jp_set : P -> smat QcNum -> P;
  jp_hard : P -> P;
  jp_compute : list Qc -> P -> Outcome P }.
Arguments mkJP {P}. Arguments jp_J {P}. Arguments jp_set {P}. Arguments jp_hard {P}. Arguments jp_compute {P}.
(** DefaultJacobianProvider 22-36: the state is m_J, empty at first; hardReset is the empty one of the interface (32) *)
Definition default_jp (dx : Qc) (jt : option (trimmer QcNum)) (g : vmapping QcNum) : jprov (smat QcNum) :=
  mkJP (fun J => J) (fun _ J => J) (fun J => J) (fun x0 _ => default_provider (N:=QcNum) dx jt g x0).
Definition default_new : smat QcNum := new_fast (N:=QcNum) (0, 0).
(** SparseJacobianProvider 23-58 *)
Definition sparse_jp (dx : Qc) (jt : option (trimmer QcNum)) (g : vmapping QcNum) : jprov (sprov QcNum) :=
  mkJP (fun p => spJ p) (fun p J => mkSP (N:=QcNum) J (spLay p) (lay_valid p)) (sp_hardReset (N:=QcNum))
       (fun x0 p => r <- sp_compute (N:=QcNum) dx jt g x0 p ;; Ret (fst r)).

(** * The directions *)
(** m_lu (not used by Broyden), m_xprev, m_fprev, m_havePrev, and the provider's state *)
Record bst (P : Type) : Type := mkB { b_p : P; b_lu : LUModel.lu; b_xp : list Qc; b_fp : list Qc; b_have : bool }.
Arguments mkB {P}. Arguments b_p {P}. Arguments b_lu {P}. Arguments b_xp {P}. Arguments b_fp {P}. Arguments b_have {P}.
(** constructors: Broyden 26-28, FakeBroyden 21-23, Hart 24-26 *)
Definition b_new {P} (p : P) : bst P := mkB p lu_empty [] [] false.

Section Dirs.
Context {P : Type} (jp : jprov P).

(** reset: Broyden 30-35; FakeBroyden 25-32 and Hart 28-35 also drop m_lu *)
Definition bro_reset (hard : bool) (s : bst P) : bst P :=
  mkB (if hard then jp_hard jp (b_p s) else b_p s) (b_lu s) (b_xp s) (b_fp s) false.
Definition fake_reset (hard : bool) (s : bst P) : bst P :=
  mkB (if hard then jp_hard jp (b_p s) else b_p s) (if hard then lu_empty else b_lu s) (b_xp s) (b_fp s) false.

(** JacobianBroydenUpdateNewtonDescentDirection::computeDescentDirection 41-77; a new LUFactorizer each time *)
Definition bro_dir (x0 f0 : list Qc) (_ : nat) (s : bst P) : Outcome (list Qc * bst P) :=
  let recalc := mat_empty (jp_J jp (b_p s)) in
  p <- (if recalc then jp_compute jp x0 (b_p s) else Ret (b_p s)) ;;
  J <- (if negb recalc && b_have s
        then r <- secant_parts (jp_J jp p) x0 f0 (b_xp s) (b_fp s) ;; broyden_elems (length x0) (snd r) (fst r) (jp_J jp p)
        else Ret (jp_J jp p)) ;;
  lu <- setMatrix (sdat J) ;;
  r <- lu_direction lu f0 ;;
  Ret (fst r, mkB (jp_set jp p J) (b_lu s) x0 f0 true).

(** JacobianFakeBroydenUpdateNewtonDescentDirection::computeDescentDirection 38-74 *)
Definition fake_dir (x0 f0 : list Qc) (_ : nat) (s : bst P) : Outcome (list Qc * bst P) :=
  let recalc := mat_empty (jp_J jp (b_p s)) in
  p <- (if recalc then jp_compute jp x0 (b_p s) else Ret (b_p s)) ;;
  J <- (if negb recalc && b_have s
        then r <- secant_parts (jp_J jp p) x0 f0 (b_xp s) (b_fp s) ;; fake_elems (snd r) (fst r) (jp_J jp p)
        else Ret (jp_J jp p)) ;;
  lu <- (if lu_is_empty (b_lu s) then setMatrix (sdat J) else setMatrixFast (b_lu s) (sdat J)) ;;
  r <- lu_direction lu f0 ;;
  Ret (fst r, mkB (jp_set jp p J) (snd r) x0 f0 true).

(** JacobianHartUpdateNewtonDescentDirection::computeDescentDirection 41-82 (isFactorized: [ufact]) *)
Definition hart_dir (x0 f0 : list Qc) (_ : nat) (s : bst P) : Outcome (list Qc * bst P) :=
  let recalc := negb (ufact (b_lu s)) in
  p <- (if recalc then jp_compute jp x0 (b_p s) else Ret (b_p s)) ;;
  lu <- (if recalc then setMatrix (sdat (jp_J jp p))
         else if b_have s then sv <- lsub (N:=QcNum) x0 (b_xp s) ;; y <- lsub (N:=QcNum) f0 (b_fp s) ;; secantUpdateHart (b_lu s) sv y
         else Ret (b_lu s)) ;;
  r <- lu_direction lu f0 ;;
  Ret (fst r, mkB p (snd r) x0 f0 true).

(** hardResetMayHelp is true (37-39, 34-36, 37-39); reportSuccess is not overridden *)
Definition bro_dd : ddir QcNum (bst P) := mkDD (N:=QcNum) bro_reset (fun _ => true) bro_dir (fun _ s => s).
Definition fake_dd : ddir QcNum (bst P) := mkDD (N:=QcNum) fake_reset (fun _ => true) fake_dir (fun _ s => s).
Definition hart_dd : ddir QcNum (bst P) := mkDD (N:=QcNum) fake_reset (fun _ => true) hart_dir (fun _ s => s).

(** ** JacobianLazyFakeBroydenUpdateNewtonDescentDirection *)
Inductive jaction : Type := LeaveJ | UpdateJ | RecomputeJ.        (* 127 *)
(** members 118-128, and the provider's state *)
Record lst : Type := mkL { l_p : P; l_dJ : smat QcNum; l_lu : LUModel.lu; l_xp : list Qc; l_fp : list Qc; l_have : bool;
                           l_act : jaction; l_last : nat }.
(** constructor 26-31 *)
Definition l_new (p : P) : lst := mkL p (new_fast (N:=QcNum) (0, 0)) lu_empty [] [] false RecomputeJ 0.
(** reset 33-41 *)
Definition lazy_reset (hard : bool) (s : lst) : lst :=
  if hard then mkL (jp_hard jp (l_p s)) (l_dJ s) lu_empty (l_xp s) (l_fp s) false RecomputeJ (l_last s)
  else mkL (l_p s) (l_dJ s) (l_lu s) (l_xp s) (l_fp s) false (l_act s) (l_last s).
(** computeDescentDirection 47-91 *)
Definition lazy_dir (x0 f0 : list Qc) (it : nat) (s : lst) : Outcome (list Qc * lst) :=
  let recalc := (it =? 0) && (mat_empty (jp_J jp (l_p s)) || match l_act s with RecomputeJ => true | _ => false end) in
  p <- (if recalc then jp_compute jp x0 (l_p s) else Ret (l_p s)) ;;
  let J := jp_J jp p in
  let dJ0 := if recalc then makeZero (N:=QcNum) J else l_dJ s in
  lu0 <- (if recalc then (if lu_is_empty (l_lu s) then setMatrix (sdat J) else setMatrixFast (l_lu s) (sdat J)) else Ret (l_lu s)) ;;
  dJ1 <- (if negb recalc && l_have s
          then r <- secant_parts J x0 f0 (l_xp s) (l_fp s) ;; fake_elems (snd r) (fst r) dJ0
          else Ret dJ0) ;;
  let upd := (it =? 0) && match l_act s with UpdateJ => true | _ => false end in
  J' <- (if upd then add_matrix J dJ1 else Ret J) ;;
  let dJ2 := if upd then makeZero (N:=QcNum) dJ1 else dJ1 in
  lu1 <- (if upd then setMatrixFast lu0 (sdat J') else Ret lu0) ;;
  r <- lu_direction lu1 f0 ;;
  Ret (fst r, mkL (jp_set jp p J') dJ2 (snd r) x0 f0 true (l_act s) it).
(** reportSuccess 93-97 *)
Definition lazy_report (lazy : nat) (ok : bool) (s : lst) : lst :=
  let a := if ok then (if l_last s + 1 <=? lazy then LeaveJ else UpdateJ) else RecomputeJ in
  mkL (l_p s) (l_dJ s) (l_lu s) (l_xp s) (l_fp s) (l_have s) a (l_last s).
(** hardResetMayHelp 43-45 *)
Definition lazy_dd (lazy : nat) : ddir QcNum lst := mkDD (N:=QcNum) lazy_reset (fun _ => true) lazy_dir (lazy_report lazy).
End Dirs.
Arguments mkL {P}. Arguments l_p {P}. Arguments l_dJ {P}. Arguments l_lu {P}. Arguments l_xp {P}. Arguments l_fp {P}.
Arguments l_have {P}. Arguments l_act {P}. Arguments l_last {P}.

(** * Histories of calls of a descent direction object *)
Inductive dev : Type :=
| DReset (hard : bool)
| DDir (x0 f0 : list Qc) (it : nat)
| DReport (ok : bool).
(** The directions returned, in order. *)
Fixpoint dhist {S} (dd : ddir QcNum S) (h : list dev) (s : S) : Outcome (list (list Qc) * S) :=
  match h with
  | [] => Ret ([], s)
  | DReset hard :: t => dhist dd t (dd_reset dd hard s)
  | DDir x0 f0 it :: t => r <- dd_dir dd x0 f0 it s ;; q <- dhist dd t (snd r) ;; Ret (fst r :: fst q, snd q)
  | DReport ok :: t => dhist dd t (dd_report dd ok s)
  end.
