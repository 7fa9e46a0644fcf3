(** MapModel.v - vector mappings: narrowing, reordering, diagonal scaling, normalization.
    Models /repo/include/ode_num_int/alg/VectorNarrowingMapping.h, VectorReorderingMapping.h, DiagonalMapping.h,
    MappingNormalizer.h, interfaces/VectorMapping.h and interfaces/VectorBijectiveMapping.h.
    V::operator[] is std::vector::at (la/VectorTemplate.h 39-44), so out of range access throws.
    Simplifications: unsigned int is [nat]; a mapping's map(dst,x) is a function of x alone which may throw
    (its result does not depend on what dst held); source and destination vectors are different objects;
    observers of the mapping are not modelled here. *)
From Coq Require Import List Arith Bool.
From Verif Require Import Base.
Import ListNotations.

Section Maps.
Context (N : Num).
Notation T := (nT N).
Notation vec := (list T).

(** VectorMapping, interfaces/VectorMapping.h 21-51: sizes and map(). *)
Record vmapping : Type := mkMap { inSize : nat; outSize : nat; mapf : vec -> Outcome vec }.

(** * VectorNarrowingMapping.h *)
(** normalizedIndices 132-140: std::sort, then std::unique and resize.  (Sorting numbers has one result,
    so an insertion sort stands for std::sort.) *)
Fixpoint insert_ix (a : nat) (l : list nat) : list nat :=
  match l with [] => [a] | b :: t => if a <=? b then a :: l else b :: insert_ix a t end.
Definition sort_ix (l : list nat) : list nat := fold_right insert_ix [] l.
Fixpoint unique_ix (l : list nat) : list nat :=
  match l with
  | a :: ((b :: _) as t) => if a =? b then unique_ix t else a :: unique_ix t
  | _ => l
  end.
Definition normalizedIndices (l : list nat) : list nat := unique_ix (sort_ix l).
(** checkIndices 142-148 *)
Definition checkIndices (l : list nat) (size : nat) : Outcome unit :=
  if forallb (fun i => i <? size) l then Ret tt else Throw.

(** The object: the wrapped mapping, m_disabledInputIndices, m_state, m_disabledOutputIndices 127-130. *)
Record narrowing : Type := mkNarrow { nmap : vmapping; disIn : list nat; frozen : vec; disOut : list nat }.
Definition narrow_new (f : vmapping) : narrowing := mkNarrow f [] [] [].
(** setInputNarrowing 29-34 *)
Definition setInputNarrowing (o : narrowing) (ds : list nat) (state : vec) : Outcome narrowing :=
  _ <- checkIndices ds (inSize (nmap o)) ;;
  Ret (mkNarrow (nmap o) (normalizedIndices ds) state (disOut o)).
(** setOutputNarrowing 40-44 *)
Definition setOutputNarrowing (o : narrowing) (ds : list nat) : Outcome narrowing :=
  _ <- checkIndices ds (outSize (nmap o)) ;;
  Ret (mkNarrow (nmap o) (disIn o) (frozen o) (normalizedIndices ds)).

(** reduce 150-172.  The index id into disabledIndices is represented by the remaining part of the list.
    The inner loop 160-168: skip indices below is, and while disabledIndices[id]==is advance is (after which
    disabledIndices[id] is below is and is skipped). *)
Fixpoint advance (rest : list nat) (is : nat) : list nat * nat :=
  match rest with
  | [] => ([], is)
  | d :: t => if d <? is then advance t is else if d =? is then advance t (S is) else (rest, is)
  end.
(** 158-169: result[in] for in = 0 .. nn-1, written in order, hence built as a list. *)
Fixpoint reduce_loop (nn : nat) (rest : list nat) (is : nat) (x : vec) : Outcome vec :=
  match nn with
  | O => Ret []
  | S n => let ri := advance rest is in
           a <- rdat x (snd ri) ;;
           l <- reduce_loop n (fst ri) (S (snd ri)) x ;;
           Ret (a :: l)
  end.
(** 156: the difference of unsigned sizes wraps when x is shorter; resize then fails or some x[is] throws. *)
Definition reduce (x : vec) (ds : list nat) : Outcome vec :=
  match ds with
  | [] => Ret x
  | _ => if length x <? length ds then Throw else reduce_loop (length x - length ds) ds 0 x
  end.
(** widenInput 54-72.  63: skip the disabled indices below is. *)
Fixpoint drop_lt (is : nat) (rest : list nat) : list nat :=
  match rest with [] => [] | d :: t => if d <? is then drop_lt is t else rest end.
(** 62-68: dst[is] for is = 0 .. ns-1 in order; src[in++] is the head of the rest of src. *)
Fixpoint widen_loop (count is : nat) (rest : list nat) (src state : vec) : Outcome vec :=
  match count with
  | O => Ret []
  | S c => let rest' := drop_lt is rest in
           if match rest' with d :: _ => d =? is | [] => false end
           then a <- rdat state is ;; l <- widen_loop c (S is) rest' src state ;; Ret (a :: l)
           else match src with
                | [] => Throw
                | a :: src' => l <- widen_loop c (S is) rest' src' state ;; Ret (a :: l)
                end
  end.
Definition widenInput (o : narrowing) (src : vec) : Outcome vec :=
  match disIn o with
  | [] => Ret src
  | _ => widen_loop (inSize (nmap o)) 0 (disIn o) src (frozen o)
  end.
(** narrowInput 46-52, narrowOutput 80-86 *)
Definition narrowInput (o : narrowing) (src : vec) : Outcome vec := reduce src (disIn o).
Definition narrowOutput (o : narrowing) (src : vec) : Outcome vec := reduce src (disOut o).
(** inputSize 88-90, outputSize 92-94 *)
Definition narrow_inSize (o : narrowing) : nat := inSize (nmap o) - length (disIn o).
Definition narrow_outSize (o : narrowing) : nat := outSize (nmap o) - length (disOut o).
(** map 96-118.  117 reduces the output with the disabled *input* indices. *)
Definition narrow_map (o : narrowing) (x : vec) : Outcome vec :=
  px <- (match disIn o with [] => Ret x | _ => widenInput o x end) ;;
  y <- mapf (nmap o) px ;;
  match disOut o with
  | [] => Ret y
  | _ => reduce y (disIn o)
  end.

(** * VectorReorderingMapping.h *)
(** order 147-155 *)
Fixpoint order (ord : list nat) (x : vec) : Outcome vec :=
  match ord with
  | [] => Ret []
  | i :: t => a <- rdat x i ;; l <- order t x ;; Ret (a :: l)
  end.
(** VectorTemplate::resize 75-77 *)
Definition vresize (n : nat) (v : vec) : vec := firstn n v ++ repeat (n0 N) (n - length v).
(** unorder 157-165; dst is what the destination held before. *)
Definition unorder (ord : list nat) (dst x : vec) : Outcome vec :=
  ofor 0 (length ord) (fun i dst => a <- rdat x i ;; j <- rd ord i ;; wrat dst j a) (vresize (length ord) dst).
(** The object: mapping and both orderings (maybeInit 137 does nothing). *)
Record reordering : Type := mkReord { rmap : vmapping; inOrd : list nat; outOrd : list nat }.
Definition orderInput (o : reordering) (x : vec) : Outcome vec := order (inOrd o) x.          (* 51-65 *)
Definition orderOutput (o : reordering) (x : vec) : Outcome vec := order (outOrd o) x.        (* 83-97 *)
Definition unorderInput (o : reordering) (x : vec) : Outcome vec := unorder (inOrd o) [] x.   (* 67-81 *)
Definition unorderOutput (o : reordering) (x : vec) : Outcome vec := unorder (outOrd o) [] x. (* 99-113 *)
(** map 115-121 *)
Definition reord_map (o : reordering) (x : vec) : Outcome vec :=
  xu <- unorderInput o x ;; y <- mapf (rmap o) xu ;; orderOutput o y.

(** * DiagonalMapping.h *)
(** map 27-34, unmap 36-43: dst[i] = x[i] op m_d[i] for i below the size of x *)
Fixpoint diag_op (op : T -> T -> T) (d x : vec) : Outcome vec :=
  match x with
  | [] => Ret []
  | a :: x' => match d with
               | [] => Throw
               | b :: d' => l <- diag_op op d' x' ;; Ret (op a b :: l)
               end
  end.
Definition diag_map (d x : vec) : Outcome vec := diag_op (nmul N) d x.
Definition diag_unmap (d x : vec) : Outcome vec := diag_op (ndiv N) d x.
(** VectorInverseMapping, interfaces/VectorBijectiveMapping.h 49-55: map and unmap exchanged *)
Definition inv_map (d x : vec) : Outcome vec := diag_unmap d x.
Definition inv_unmap (d x : vec) : Outcome vec := diag_map d x.

(** * MappingNormalizer.h 36-44: the diagonal mapping is applied to the argument and to the value *)
Definition norm_map (f : vmapping) (d x : vec) : Outcome vec :=
  arg <- diag_map d x ;; y <- mapf f arg ;; diag_map d y.
(** normalize 46-60, given the Jacobian's diagonal elements J.get(i,i); [sq] is sqrt *)
Fixpoint norm_diag (sq : T -> T) (jd : vec) : Outcome vec :=
  match jd with
  | [] => Ret []
  | a :: t => if neqb N a (n0 N) then Throw else l <- norm_diag sq t ;; Ret (ndiv N (n1 N) (sq (nabs N a)) :: l)
  end.
End Maps.
Arguments mkMap {N} _ _ _.
Arguments inSize {N} _.
Arguments outSize {N} _.
Arguments mapf {N} _ _.
Arguments mkNarrow {N} _ _ _ _.
Arguments nmap {N} _.
Arguments disIn {N} _.
Arguments disOut {N} _.
Arguments frozen {N} _.
Arguments narrow_new {N} _.
Arguments setInputNarrowing {N} o ds state.
Arguments setOutputNarrowing {N} o ds.
Arguments reduce_loop {N} nn rest is x.
Arguments reduce {N} x ds.
Arguments widen_loop {N} count is rest src state.
Arguments widenInput {N} o src.
Arguments narrowInput {N} o src.
Arguments narrowOutput {N} o src.
Arguments narrow_inSize {N} o.
Arguments narrow_outSize {N} o.
Arguments narrow_map {N} o x.
Arguments order {N} ord x.
Arguments vresize {N} n v.
Arguments unorder {N} ord dst x.
Arguments mkReord {N} _ _ _.
Arguments rmap {N} _.
Arguments inOrd {N} _.
Arguments outOrd {N} _.
Arguments orderInput {N} o x.
Arguments orderOutput {N} o x.
Arguments unorderInput {N} o x.
Arguments unorderOutput {N} o x.
Arguments reord_map {N} o x.
Arguments diag_op {N} op d x.
Arguments diag_map {N} d x.
Arguments diag_unmap {N} d x.
Arguments inv_map {N} d x.
Arguments inv_unmap {N} d x.
Arguments norm_map {N} f d x.
Arguments norm_diag {N} sq jd.
