(** JacModel.v - numerical Jacobians and Jacobian trimmers.
    Models /repo/include/ode_num_int/alg/computeJacobian.h, SparseJacobianCalculator.h, SparseJacobianProvider.h,
    DefaultJacobianProvider.h, JacobianWidthBasedTrimmer.h, JacobianThresholdBasedTrimmer.h and
    MappingNormalizer::normalize (MappingNormalizer.h 46-60).
    Every evaluation of the mapping is logged, in order, with its argument.  Indices are [nat] except in the
    width trimmer, which does 32-bit arithmetic. *)
From Coq Require Import List Arith Bool ZArith.
From Verif Require Import Base SMap SpModel MapModel.
Import ListNotations.

Section Jac.
Context (N : Num).
Notation T := (nT N).
Notation vec := (list T).

(** x[i] += dx, V::operator[] = at *)
Definition bump (x : vec) (i : nat) (dx : T) : Outcome vec := a <- rdat x i ;; wrat x i (nadd N a dx).

(** * computeJacobian.h 12-48; [dx] is 1e-6 (34).  Returns the matrix and the arguments the mapping was called with. *)
(** 39-44: one column *)
Definition jac_column (n i : nat) (f f0 : vec) (dx : T) (res : smat N) : Outcome (smat N) :=
  ofor 0 n (fun j res =>
    a <- rdat f j ;; b <- rdat f0 j ;;
    let df := nsub N a b in
    if neqb N df (n0 N) then Ret res else at_upd res (j, i) (fun _ => ndiv N df dx)) res.
Definition computeJacobian (dx : T) (g : vmapping N) (x0 : vec) : Outcome (smat N * list vec) :=
  f0 <- mapf g x0 ;;
  ofor 0 (inSize g) (fun i st =>
    x <- bump x0 i dx ;;
    f <- mapf g x ;;
    res <- jac_column (inSize g) i f f0 dx (fst st) ;;
    Ret (res, snd st ++ [x])) (new_map (inSize g, inSize g), [x0]).

(** * MappingNormalizer::normalize 46-60 *)
Definition normalize (dx : T) (sq : T -> T) (g : vmapping N) (x0 : vec) : Outcome vec :=
  Jl <- computeJacobian dx g x0 ;;
  norm_diag sq (map (fun i => get (fst Jl) (i, i)) (seq 0 (inSize g))).

(** * SparseJacobianCalculator.h *)
(** 42-52: for each column the rows with stored elements and the positions of these elements in the array *)
Definition colRows (d : list (key * T)) (c : nat) : list (nat * nat) :=
  flat_map (fun pe => if snd (fst (snd pe)) =? c then [(fst (fst (snd pe)), fst pe)] else [])
           (combine (seq 0 (length d)) d).
Definition crows (d : list (key * T)) (c : nat) : list nat := map fst (colRows d c).
(** 54-64: the set of affected rows, a vector<bool> in the code, is represented by the list of its members *)
Definition intersects (d : list (key * T)) (aff : list nat) (c : nat) : bool :=
  existsb (fun r => existsb (Nat.eqb r) aff) (crows d c).
(** 74-83: pass over the remaining columns (an ordered set: increasing list) *)
Fixpoint group_scan (d : list (key * T)) (aff todo : list nat) : list nat * list nat :=
  match todo with
  | [] => ([], [])
  | c :: t => if intersects d aff c
              then let gr := group_scan d aff t in (fst gr, c :: snd gr)
              else let gr := group_scan d (crows d c ++ aff) t in (c :: fst gr, snd gr)
  end.
(** 66-84; [fuel] bounds the number of groups, the number of columns is enough *)
Fixpoint group_loop (fuel : nat) (d : list (key * T)) (todo : list nat) : list (list nat) :=
  match fuel, todo with
  | S fu, c :: t => let gr := group_scan d (crows d c) t in (c :: fst gr) :: group_loop fu d (snd gr)
  | _, _ => []
  end.
(** 24-85: m_layout; elements outside the size would be written past the ends of colSizes / affectedRows *)
Definition layout : Type := list (list (nat * list (nat * nat))).
Definition groups (J : smat N) : list (list nat) := group_loop (snd (ssz J)) (sdat J) (seq 0 (snd (ssz J))).
Definition calc_layout (J : smat N) : Outcome layout :=
  if forallb (fun e => inside (ssz J) (fst e)) (sdat J)
  then Ret (map (map (fun c => (c, colRows (sdat J) c))) (groups J))
  else UB.
(** calculate 87-104; *rp.second = value writes through the stored address (position in the array) *)
Definition set_pos (d : list (key * T)) (pos : nat) (v : T) : Outcome (list (key * T)) :=
  match nth_error d pos with Some e => Ret (upd d pos (fst e, v)) | None => UB end.
Definition calc_group (g : vmapping N) (x0 f0 : vec) (delta : T) (grp : list (nat * list (nat * nat)))
    (st : list (key * T) * list vec) : Outcome (list (key * T) * list vec) :=
  x <- ofold (fun x c2r => bump x (fst c2r) delta) grp x0 ;;
  f <- mapf g x ;;
  d <- ofold (fun d c2r => ofold (fun d rp => a <- rdat f (fst rp) ;; b <- rdat f0 (fst rp) ;;
                                    set_pos d (snd rp) (ndiv N (nsub N a b) delta)) (snd c2r) d) grp (fst st) ;;
  Ret (d, snd st ++ [x]).
Definition calculate (delta : T) (lay : layout) (g : vmapping N) (x0 : vec) (J : smat N) : Outcome (smat N * list vec) :=
  f0 <- mapf g x0 ;;
  r <- ofold (fun st grp => calc_group g x0 f0 delta grp st) lay (sdat J, [x0]) ;;
  Ret (mkS (fast J) (ssz J) (fst r), snd r).
(** mappingEvaluationsRequired 106-108 *)
Definition evaluationsRequired (lay : layout) : nat := length lay + 1.
(** computeSparseJacobian 131-138 *)
Definition computeSparseJacobian (delta : T) (g : vmapping N) (x0 : vec) (J : smat N) : Outcome (smat N * list vec) :=
  lay <- calc_layout J ;; calculate delta lay g x0 J.

(** * Trimmers *)
(** JacobianThresholdBasedTrimmer.h 23-40 *)
Definition trim_threshold (thr : T) (J : smat N) : Outcome (smat N) :=
  if neqb N thr (n0 N) then Ret J else
  let jmax := fold_left (fun m e => if nltb N m (nabs N (snd e)) then nabs N (snd e) else m) (sdat J) (n0 N) in
  if neqb N jmax (n0 N) then Ret J else
  ofold (fun res e => if Nat.eqb (fst (fst e)) (snd (fst e)) || nleb N (nmul N thr jmax) (nabs N (snd e))
                      then at_upd res (fst e) (fun _ => snd e) else Ret res) (sdat J) (new_map (ssz J)).
(** Conversion of an unsigned int value (mod 2^32) to int *)
Definition to_int (u : Z) : Z := let m := Z.modulo u (2 ^ 32) in if (m <? 2 ^ 31)%Z then m else (m - 2 ^ 32)%Z.
(** JacobianWidthBasedTrimmer.h 21-32; std::abs(INT_MIN) stays INT_MIN with two's complement *)
Definition int_abs (d : Z) : Z := if (d =? - 2 ^ 31)%Z then d else Z.abs d.
Definition trim_width (width : Z) (J : smat N) : Outcome (smat N) :=
  if (width =? 0)%Z then Ret J else
  ofold (fun res e => let d := to_int (Z.of_nat (fst (fst e)) - Z.of_nat (snd (fst e))) in
                      if (int_abs d <? to_int width)%Z then at_upd res (fst e) (fun _ => snd e) else Ret res)
        (sdat J) (new_map (ssz J)).

(** * Providers *)
(** m_J = <map-backed matrix>, SparseMatrixFastData::copyFrom: the elements in iteration order *)
Definition to_fast (a : smat N) : smat N := mkS true (ssz a) (sdat a).
Definition trimmer : Type := smat N -> Outcome (smat N).
Definition trim_opt (jt : option trimmer) (a : smat N) : Outcome (smat N) :=
  match jt with Some t => t a | None => Ret a end.
(** DefaultJacobianProvider::computeJacobian 22-28 *)
Definition default_provider (dx : T) (jt : option trimmer) (g : vmapping N) (x0 : vec) : Outcome (smat N) :=
  Jl <- computeJacobian dx g x0 ;; a <- trim_opt jt (fst Jl) ;; Ret (to_fast a).

(** SparseJacobianProvider: m_J and m_Jcalc.  The layout in m_Jcalc holds addresses into m_J's array: [lay_valid]
    records that the array has not been assigned since (an assignment may reallocate; using the addresses then is undefined). *)
Record sprov : Type := mkSP { spJ : smat N; spLay : layout; lay_valid : bool }.
(** SparseJacobianProvider() 23-25 *)
Definition sp_new : sprov := mkSP (new_fast (0, 0)) [] true.
(** hardReset 30-32 *)
Definition sp_hardReset (p : sprov) : sprov := mkSP (new_fast (0, 0)) (spLay p) false.
(** computeJacobian 38-48 *)
Definition sp_compute (dx : T) (jt : option trimmer) (g : vmapping N) (x0 : vec) (p : sprov) : Outcome (sprov * list vec) :=
  match jt with
  | Some t => Jl <- computeJacobian dx g x0 ;; a <- t (fst Jl) ;; Ret (mkSP (to_fast a) (spLay p) false, snd Jl)
  | None =>
    match sdat (spJ p) with
    | [] => Jl <- computeJacobian dx g x0 ;; lay <- calc_layout (to_fast (fst Jl)) ;;
            Ret (mkSP (to_fast (fst Jl)) lay true, snd Jl)
    | _ => if lay_valid p then r <- calculate dx (spLay p) g x0 (spJ p) ;; Ret (mkSP (fst r) (spLay p) true, snd r)
           else UB
    end
  end.
End Jac.
Arguments bump {N} x i dx.
Arguments jac_column {N} n i f f0 dx res.
Arguments computeJacobian {N} dx g x0.
Arguments normalize {N} dx sq g x0.
Arguments colRows {N} d c.
Arguments crows {N} d c.
Arguments intersects {N} d aff c.
Arguments group_scan {N} d aff todo.
Arguments group_loop {N} fuel d todo.
Arguments groups {N} J.
Arguments calc_layout {N} J.
Arguments set_pos {N} d pos v.
Arguments calc_group {N} g x0 f0 delta grp st.
Arguments calculate {N} delta lay g x0 J.
Arguments computeSparseJacobian {N} delta g x0 J.
Arguments trim_threshold {N} thr J.
Arguments trim_width {N} width J.
Arguments to_fast {N} a.
Arguments trim_opt {N} jt a.
Arguments default_provider {N} dx jt g x0.
Arguments mkSP {N} _ _ _.
Arguments spJ {N} _.
Arguments spLay {N} _.
Arguments lay_valid {N} _.
Arguments sp_new {N}.
Arguments sp_hardReset {N} p.
Arguments sp_compute {N} dx jt g x0 p.
