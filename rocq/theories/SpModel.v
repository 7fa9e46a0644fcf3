(** SpModel.v - sparse matrices, map-backed and sorted-array-backed, and their views.
    Models /repo/include/ode_num_int/la/SparseMatrixTemplate.h.
    Matrix objects live in a memory, views are expressions over it, so operations whose operands share
    storage are covered.  Simplifications: indices are [nat] (no wrap-around of unsigned int); ASSERT is nothing (release build). *)
From Coq Require Import List Arith Bool ZArith.
From Verif Require Import Base SMap.
Import ListNotations.

Definition key : Type := (nat * nat)%type.                 (* Index, 36 *)
(** std::pair's operator<: row first, then column. *)
Definition KO : TO key := TOpair TOnat TOnat.
Definition kltb (a b : key) : bool := match cmp KO a b with Lt => true | _ => false end.
Definition keqb2 (a b : key) : bool := Nat.eqb (fst a) (fst b) && Nat.eqb (snd a) (snd b).
Definition swapk (p : key) : key := (snd p, fst p).

Section Sp.
Context (N : Num).
Notation T := (nT N).

(** SparseMatrixTemplate<SparseMatrixData> (fast = false, data = the std::map in key order, 47-168) or
    SparseMatrixTemplate<SparseMatrixFastData> (fast = true, data = the std::vector, 170-309), with m_size (1051). *)
Record smat : Type := mkS { fast : bool; ssz : key; sdat : list (key * T) }.

(** std::lower_bound (used in 204, 217, 223, 236) as in libstdc++: halve the remaining length.
    The fuel argument only bounds the recursion; the length of the range is enough. *)
Fixpoint lower_bound_ (fuel : nat) (d : list (key * T)) (first len : nat) (p : key) : nat :=
  match fuel with
  | O => first
  | S f => if Nat.eqb len 0 then first
           else let half := Nat.div2 len in
                match nth_error d (first + half) with
                | Some (k, _) => if kltb k p then lower_bound_ f d (S (first + half)) (len - half - 1) p
                                 else lower_bound_ f d first half p
                | None => first
                end
  end.
Definition lower_bound (d : list (key * T)) (p : key) : nat := lower_bound_ (length d) d 0 (length d) p.

(** The position of p in the array, None when  it == end() || it->first != index  (205, 218, 224, 237). *)
Definition fast_pos (d : list (key * T)) (p : key) : option nat :=
  let i := lower_bound d p in
  match nth_error d i with
  | Some (k, _) => if keqb2 k p then Some i else None
  | None => None
  end.

(** find: 79/88/93 (map) and 204-208/217/223 (array). *)
Definition sfind (a : smat) (p : key) : option T :=
  if fast a then match fast_pos (sdat a) p with
                 | Some i => option_map snd (nth_error (sdat a) i)
                 | None => None end
  else mfind KO p (sdat a).
(** get 78-81, 202-209 *)
Definition get (a : smat) (p : key) : T := match sfind a p with Some x => x | None => n0 N end.
(** hasIndex 87-89, 215-219 *)
Definition hasIndex (a : smat) (p : key) : bool := match sfind a p with Some _ => true | None => false end.

(** at(p) = f(at(p)): 101-107 (map: operator[] inserts a zero first), 234-240 (array: throws if absent). *)
Definition at_upd (a : smat) (p : key) (f : T -> T) : Outcome smat :=
  if fast a then match fast_pos (sdat a) p with
                 | Some i => match nth_error (sdat a) i with
                             | Some (k, x) => Ret (mkS true (ssz a) (upd (sdat a) i (k, f x)))
                             | None => Throw end
                 | None => Throw end
  else Ret (mkS false (ssz a) (mput KO p (f (get a p)) (sdat a))).

(** removeAt 147-152, 278-280 *)
Definition removeAt (a : smat) (p : key) : Outcome smat :=
  if fast a then Throw else Ret (mkS false (ssz a) (mdel KO p (sdat a))).
(** clear 154-156, 282-284 *)
Definition clear (a : smat) : smat := mkS (fast a) (ssz a) [].
(** resizeData 137-145 *)
Definition inside (s p : key) : bool := (fst p <? fst s) && (snd p <? snd s).
Definition resizeData (s : key) (d : list (key * T)) : list (key * T) := filter (fun e => inside s (fst e)) d.
(** resize 871-877: only when the size differs; the new size is stored before resizeData throws (274-276). *)
Definition resize (a : smat) (s : key) : smat * Outcome unit :=
  if keqb2 (ssz a) s then (a, Ret tt)
  else if fast a then (mkS true s (sdat a), Throw)
  else (mkS false s (resizeData s (sdat a)), Ret tt).
(** SparseMatrixTemplate(rows, columns) 840-841 *)
Definition new_map (s : key) : smat := mkS false s [].
Definition new_fast (s : key) : smat := mkS true s [].
(** sizeFromData 883-891 *)
Definition sizeFromData (a : smat) : key :=
  fold_left (fun s e => (Nat.max (fst s) (fst (fst e) + 1), Nat.max (snd s) (snd (fst e) + 1))) (sdat a) (0, 0).
(** makeZero 897-902 *)
Definition makeZero (a : smat) : smat := mkS (fast a) (ssz a) (map (fun e => (fst e, n0 N)) (sdat a)).
(** addScaledIdentity 904-910 *)
Definition addScaledIdentity (a : smat) (k : T) : Outcome smat :=
  ofor 0 (fst (ssz a)) (fun i a => at_upd a (i, i) (fun x => nadd N x k)) a.
(** identity / scaledIdentity 1036-1048, for map storage *)
Definition scaledIdentity (n : nat) (k : T) : Outcome smat := addScaledIdentity (new_map (n, n)) k.

(** * Views *)
Definition mems : Type := list smat.
Inductive sexpr : Type :=
| SW (id : nat)                       (* a matrix object *)
| SBk (e : sexpr) (from size : key)   (* block, 976-988 *)
| STr (e : sexpr)                     (* transposed, 997-1002 *)
| SSc (e : sexpr) (k : T).            (* scaled, 990-995 *)

Definition dflt : smat := mkS false (0, 0) [].
Definition obj (m : mems) (id : nat) : smat := nth id m dflt.
Fixpoint sbase (e : sexpr) : nat :=
  match e with SW id => id | SBk e' _ _ => sbase e' | STr e' => sbase e' | SSc e' _ => sbase e' end.

(** size(): 867-869; the views are constructed with the block size (980), the source's size for scaled (994)
    and the source's size - not swapped - for transposed (1001). *)
Fixpoint ssize (m : mems) (e : sexpr) : key :=
  match e with SW id => ssz (obj m id) | SBk _ _ s => s | STr e' => ssize m e' | SSc e' _ => ssize m e' end.

(** The storage index behind an index of a view: sourceIndex 519-523, transposedIndex 685-687. *)
Fixpoint to_base (e : sexpr) (p : key) : key :=
  match e with
  | SW _ => p
  | SBk e' f _ => to_base e' (fst p + fst f, snd p + snd f)
  | STr e' => to_base e' (swapk p)
  | SSc e' _ => to_base e' p
  end.
(** The index under which iteration over a view presents a stored element, None if it is skipped:
    isValid 433-442 and destinationIndex 525-530, transposedIndex 597, Scale 720. *)
Fixpoint of_base (e : sexpr) (b : key) : option key :=
  match e with
  | SW _ => Some b
  | SBk e' f s => match of_base e' b with
                  | Some p => if (fst f <=? fst p) && (fst p <? fst f + fst s) && (snd f <=? snd p) && (snd p <? snd f + snd s)
                              then Some (fst p - fst f, snd p - snd f) else None
                  | None => None
                  end
  | STr e' => option_map swapk (of_base e' b)
  | SSc e' _ => of_base e' b
  end.
(** The value through the Scale views passed on the way: 720, 768. *)
Fixpoint sscale (e : sexpr) (x : T) : T :=
  match e with SW _ => x | SBk e' _ _ => sscale e' x | STr e' => sscale e' x | SSc e' k => nmul N (sscale e' x) k end.

(** get(Index): 338-340, 546-548, 767-769 *)
Definition sget (m : mems) (e : sexpr) (p : key) : T := sscale e (get (obj m (sbase e)) (to_base e p)).
(** get(r,c): 342-344 (Block passes r,c on without the offset), 550-552 (Transpose passes r,c on without
    swapping), 771-773 (Scale), 83-85, 211-213 *)
Fixpoint sget_rc (m : mems) (e : sexpr) (r c : nat) : T :=
  match e with
  | SW id => get (obj m id) (r, c)
  | SBk e' _ _ => sget_rc m e' r c
  | STr e' => sget_rc m e' r c
  | SSc e' k => nmul N (sget_rc m e' r c) k
  end.
(** checkedGet: 91-95, 221-228, 354-356, 562-564, 783-787 *)
Definition scheckedGet (m : mems) (e : sexpr) (p : key) : T * bool :=
  (sget m e p, hasIndex (obj m (sbase e)) (to_base e p)).

(** The elements a range-for over a view visits (const iteration: nothing changes meanwhile). *)
Definition siter (m : mems) (e : sexpr) : list (key * T) :=
  flat_map (fun b => match of_base e (fst b) with Some p => [(p, sscale e (snd b))] | None => [] end)
           (sdat (obj m (sbase e))).

(** at(p) = f(at(p)) through a view: 358-360, 566-568.  A Scale view has no at (690-821): not expressible. *)
Fixpoint writable (e : sexpr) : bool :=
  match e with SW _ => true | SBk e' _ _ => writable e' | STr e' => writable e' | SSc _ _ => false end.
Definition sat_upd (m : mems) (e : sexpr) (p : key) (f : T -> T) : mems * Outcome unit :=
  match at_upd (obj m (sbase e)) (to_base e p) f with
  | Ret a => (upd m (sbase e) a, Ret tt)
  | Throw => (m, Throw)
  | UB => (m, UB)
  end.

(** The next stored element after the iterator's position that the view presents: operator++ and
    incUntilValid (411-416, 444-446, 619-623); [after = None] is begin().  std::map iterators stay valid under
    insertion and then also see the inserted elements. *)
Fixpoint next_elem (e : sexpr) (after : option key) (d : list (key * T)) : option (key * key * T) :=
  match d with
  | [] => None
  | (b, x) :: t => if match after with None => true | Some a => kltb a b end
                   then match of_base e b with
                        | Some p => Some (b, p, sscale e x)
                        | None => next_elem e after t
                        end
                   else next_elem e after t
  end.
(** for( auto v : that ) body, with the matrix possibly being modified by the body.  [fuel] bounds the
    number of iterations looked at; None = more iterations than that. *)
Fixpoint rfor (fuel : nat) (e : sexpr) (body : key -> T -> mems -> mems * Outcome unit) (after : option key) (m : mems)
  : option (mems * Outcome unit) :=
  match fuel with
  | O => None
  | S fu => match next_elem e after (sdat (obj m (sbase e))) with
            | None => Some (m, Ret tt)
            | Some (b, p, x) => match body p x m with
                                | (m', Ret _) => rfor fu e body (Some b) m'
                                | r => Some r
                                end
            end
  end.
(** operator+= 916-923, operator-= 925-932 *)
Definition spluseq (fuel : nat) (m : mems) (dst src : sexpr) : option (mems * Outcome unit) :=
  rfor fuel src (fun p x m => sat_upd m dst p (fun y => nadd N y x)) None m.
Definition sminuseq (fuel : nat) (m : mems) (dst src : sexpr) : option (mems * Outcome unit) :=
  rfor fuel src (fun p x m => sat_upd m dst p (fun y => nsub N y x)) None m.

(** operator= from a matrix or view: doAssign 1053-1060.  Map storage: priv::copyFrom 25-30 - clear, then
    write element by element.  Array storage: copyFrom 297-304 - copy the sequence as iterated. *)
Definition sassign (fuel : nat) (m : mems) (id : nat) (src : sexpr) : option (mems * Outcome unit) :=
  let a := obj m id in
  if fast a then Some (upd m id (mkS true (ssize m src) (siter m src)), Ret tt)
  else rfor fuel src (fun p x m => sat_upd m (SW id) p (fun _ => x)) None (upd m id (mkS false (ssize m src) [])).

(** Constructing a new matrix (at the end of memory) from another one, 847-852: m_size of the source, then
    at(index) = value for each element; clone() 1004-1006. *)
Definition sconstruct (fuel : nat) (m : mems) (fst_ : bool) (src : sexpr) : option (mems * Outcome unit) :=
  rfor fuel src (fun p x m' => sat_upd m' (SW (length m)) p (fun _ => x)) None (m ++ [mkS fst_ (ssize m src) []]).

(** Row ranges: rowBegin / rowEnd 129-135 (map), 266-272 (array: throws), 473-482 (Block), 803-809 (Scale). *)
(** [lower_bound(row,0), upper_bound(row,~0u)): keys not before (row,0) and not after every column of row
    (no column exceeds ~0u, so only the row number matters). *)
Definition row_range (r : nat) (d : list (key * T)) : list (key * T) :=
  filter (fun e => negb (kltb (fst e) (r, 0)) && (fst (fst e) <=? r)) d.
Fixpoint srow (m : mems) (e : sexpr) (r : nat) : Outcome (list (key * T)) :=
  match e with
  | SW id => if fast (obj m id) then Throw else Ret (row_range r (sdat (obj m id)))
  | SBk e' f s => l <- srow m e' (r + fst f) ;;
                  Ret (flat_map (fun b => match of_base (SBk (SW 0) f s) (fst b) with Some p => [(p, snd b)] | None => [] end) l)
  | STr _ => UB       (* Transpose has no rowBegin: does not compile *)
  | SSc e' k => l <- srow m e' r ;; Ret (map (fun b => (fst b, nmul N (snd b) k)) l)
  end.

(** operator* 934-952 *)
Definition sprod (m : mems) (a b : sexpr) : Outcome smat :=
  ofor 0 (snd (ssize m b)) (fun c res =>
    ofor 0 (fst (ssize m a)) (fun r res =>
      row <- srow m a r ;;
      let product := fold_left (fun s el => let g := scheckedGet m b (snd (fst el), c) in
                                            if snd g then nadd N s (nmul N (snd el) (fst g)) else s) row (n0 N) in
      if neqb N product (n0 N) then Ret res else at_upd res (r, c) (fun _ => product)) res)
    (new_map (fst (ssize m a), snd (ssize m b))).

(** std::fill( vd, vd+n, 0 ) through raw iterators *)
Definition fill0 (n : nat) (vd : list T) : Outcome (list T) :=
  if n <=? length vd then Ret (repeat (n0 N) n ++ skipn n vd) else UB.
(** mulVectRight 962-967, on the elements of a matrix or view *)
Definition mulVectRight (rows : nat) (els : list (key * T)) (vs vd : list T) : Outcome (list T) :=
  vd <- fill0 rows vd ;;
  ofold (fun vd el => x <- rd vs (snd (fst el)) ;; y <- rd vd (fst (fst el)) ;;
                      wr vd (fst (fst el)) (nadd N y (nmul N (snd el) x))) els vd.
(** mulVectLeft 969-974 *)
Definition mulVectLeft (cols : nat) (els : list (key * T)) (vs vd : list T) : Outcome (list T) :=
  vd <- fill0 cols vd ;;
  ofold (fun vd el => x <- rd vs (fst (fst el)) ;; y <- rd vd (snd (fst el)) ;;
                      wr vd (snd (fst el)) (nadd N y (nmul N (snd el) x))) els vd.
(** operator*(m,v) 1065-1072 *)
Definition smulv (m : mems) (e : sexpr) (v : list T) : Outcome (list T) :=
  mulVectRight (fst (ssize m e)) (siter m e) v (repeat (n0 N) (fst (ssize m e))).
(** operator*(v,m) 1074-1081: the result has as many elements as the matrix has rows *)
Definition svmul (m : mems) (v : list T) (e : sexpr) : Outcome (list T) :=
  mulVectLeft (snd (ssize m e)) (siter m e) v (repeat (n0 N) (fst (ssize m e))).

(** Block::clear 488-495 (also the inner clear of assigning to a block): remove each presented element. *)
Definition sbclear (m : mems) (e : sexpr) : mems * Outcome unit :=
  fold_left (fun r el => match r with
                         | (m, Ret _) => match removeAt (obj m (sbase e)) (to_base e (fst el)) with
                                         | Ret a => (upd m (sbase e) a, Ret tt)
                                         | Throw => (m, Throw) | UB => (m, UB) end
                         | r => r end) (siter m e) (m, Ret tt).
(** Assigning to a block view, 326-336 with copyFrom 25-30. *)
Definition sbassign (fuel : nat) (m : mems) (dst src : sexpr) : option (mems * Outcome unit) :=
  match sbclear m dst with
  | (m', Ret _) => rfor fuel src (fun p x m => sat_upd m dst p (fun _ => x)) None m'
  | r => Some r
  end.

(** * Histories of edits of one map-backed matrix (C02) *)
Inductive sop : Type :=
| OpUpd (p : key) (f : T -> T)      (* at(p) = f(at(p)): a write, +=, or just touching the element *)
| OpRemove (p : key)
| OpResize (s : key)
| OpClear
| OpZero.                            (* makeZero *)
Definition srun1 (a : smat) (o : sop) : smat :=
  match o with
  | OpUpd p f => match at_upd a p f with Ret a' => a' | _ => a end
  | OpRemove p => match removeAt a p with Ret a' => a' | _ => a end
  | OpResize s => fst (resize a s)
  | OpClear => clear a
  | OpZero => makeZero a
  end.
Definition srun (s0 : key) (h : list sop) : smat := fold_left srun1 h (new_map s0).

(** Norms 1008-1030 *)
Definition sinfnorm (m : mems) (e : sexpr) : T :=
  fold_left (fun s el => if nltb N s (nabs N (snd el)) then nabs N (snd el) else s) (siter m e) (n0 N).
Definition sonenorm (m : mems) (e : sexpr) : T := fold_left (fun s el => nadd N s (nabs N (snd el))) (siter m e) (n0 N).
Definition seuclsq (m : mems) (e : sexpr) : T := fold_left (fun s el => nadd N s (nmul N (snd el) (snd el))) (siter m e) (n0 N).
End Sp.
Arguments mkS {N} fast ssz sdat.
Arguments fast {N} s.
Arguments ssz {N} s.
Arguments sdat {N} s.
Arguments fast_pos {N} d p.
Arguments lower_bound {N} d p.
Arguments lower_bound_ {N} fuel d first len p.
Arguments sfind {N} a p.
Arguments get {N} a p.
Arguments hasIndex {N} a p.
Arguments at_upd {N} a p f.
Arguments removeAt {N} a p.
Arguments clear {N} a.
Arguments resize {N} a s.
Arguments resizeData {N} s d.
Arguments new_map {N} s.
Arguments new_fast {N} s.
Arguments sizeFromData {N} a.
Arguments makeZero {N} a.
Arguments addScaledIdentity {N} a k.
Arguments scaledIdentity {N} n k.
Arguments SW {N} id.
Arguments SBk {N} e from size.
Arguments STr {N} e.
Arguments SSc {N} e k.
Arguments obj {N} m id.
Arguments sbase {N} e.
Arguments ssize {N} m e.
Arguments to_base {N} e p.
Arguments of_base {N} e b.
Arguments sscale {N} e x.
Arguments sget {N} m e p.
Arguments sget_rc {N} m e r c.
Arguments scheckedGet {N} m e p.
Arguments siter {N} m e.
Arguments writable {N} e.
Arguments sat_upd {N} m e p f.
Arguments next_elem {N} e after d.
Arguments rfor {N} fuel e body after m.
Arguments spluseq {N} fuel m dst src.
Arguments sminuseq {N} fuel m dst src.
Arguments sassign {N} fuel m id src.
Arguments sconstruct {N} fuel m fst_ src.
Arguments row_range {N} r d.
Arguments srow {N} m e r.
Arguments sprod {N} m a b.
Arguments fill0 {N} n vd.
Arguments mulVectRight {N} rows els vs vd.
Arguments mulVectLeft {N} cols els vs vd.
Arguments smulv {N} m e v.
Arguments svmul {N} m v e.
Arguments sbclear {N} m e.
Arguments sbassign {N} fuel m dst src.
Arguments OpUpd {N} p f.
Arguments OpRemove {N} p.
Arguments OpResize {N} s.
Arguments OpClear {N}.
Arguments OpZero {N}.
Arguments srun1 {N} a o.
Arguments srun {N} s0 h.
Arguments sinfnorm {N} m e.
Arguments sonenorm {N} m e.
Arguments seuclsq {N} m e.
