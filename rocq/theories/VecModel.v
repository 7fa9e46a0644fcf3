(** VecModel.v - vectors and their block / scaled views.
    Models /repo/include/ode_num_int/la/VectorTemplate.h.
    The program's vectors live in a memory; a view is an expression over it, so aliasing between the
    operands of an operation is visible.  Simplifications: indices are [nat] (no wrap-around of unsigned
    int); ASSERT is nothing (release build); vectors are never destroyed while a view exists. *)
From Coq Require Import List Arith Bool.
From Verif Require Import Base.
Import ListNotations.

Section Vec.
Context (N : Num).
Notation T := (nT N).

(** VectorTemplate.h 22-102: the std::vector inside each VectorData object, by object number. *)
Definition mem : Type := list (list T).

(** The operand types: VectorTemplate<VectorData>, <Block<D>>, <Scale<D>> (22-102, 104-180, 182-290). *)
Inductive vexpr : Type :=
| VW (id : nat)                              (* a vector object *)
| VB (e : vexpr) (from size : nat)           (* e.block(from, size), 375-387 *)
| VS (e : vexpr) (k : T).                    (* e.scaled(k), 389-393 *)

Definition vec (m : mem) (id : nat) : list T := nth id m [].

(** size(): 71-73 (VectorData), 156-158 (Block: the declared size), 264-266 (Scale: the source's size). *)
Fixpoint vsize (m : mem) (e : vexpr) : nat :=
  match e with
  | VW id => length (vec m id)
  | VB _ _ s => s
  | VS e' _ => vsize m e'
  end.

(** operator[] / at for reading: 39-53 (std::vector::at, throws), 121-141 (Block: source.at(index+from),
    the index is not compared with the block's size in a release build), 194-200 (Scale: source.at*factor). *)
Fixpoint vat (m : mem) (e : vexpr) (i : nat) : Outcome T :=
  match e with
  | VW id => rdat (vec m id) i
  | VB e' from _ => vat m e' (i + from)
  | VS e' k => x <- vat m e' i ;; Ret (nmul N x k)
  end.

(** Writing through the reference returned by at (same lines).  A Scale view is read-only (its at returns a
    value, 194-200): assigning to it does not compile; the model says UB and no theorem uses it. *)
Fixpoint vstore (m : mem) (e : vexpr) (i : nat) (v : T) : mem * Outcome unit :=
  match e with
  | VW id => if i <? length (vec m id) then (upd m id (upd (vec m id) i v), Ret tt) else (m, Throw)
  | VB e' from _ => vstore m e' (i + from) v
  | VS _ _ => (m, UB)
  end.

(** for( i; count iterations ) body, the memory surviving an exception. *)
Fixpoint vloop (body : nat -> mem -> mem * Outcome unit) (count i : nat) (m : mem) : mem * Outcome unit :=
  match count with
  | O => (m, Ret tt)
  | S c => match body i m with
           | (m', Ret _) => vloop body c (S i) m'
           | r => r
           end
  end.

(** this->at(i) op= that.at(i) : 344-345, 353-354. *)
Definition vcompound_body (op : T -> T -> T) (dst src : vexpr) (i : nat) (m : mem) : mem * Outcome unit :=
  match (x <- vat m dst i ;; y <- vat m src i ;; Ret (op x y)) with
  | Ret v => vstore m dst i v
  | Throw => (m, Throw)
  | UB => (m, UB)
  end.

(** operator+=, 341-347 *)
Definition vpluseq (m : mem) (dst src : vexpr) : mem * Outcome unit :=
  vloop (vcompound_body (nadd N) dst src) (vsize m dst) 0 m.
(** operator-=, 350-356 *)
Definition vminuseq (m : mem) (dst src : vexpr) : mem * Outcome unit :=
  vloop (vcompound_body (nsub N) dst src) (vsize m dst) 0 m.
(** operator*=, 358-363 *)
Definition vtimeseq (m : mem) (dst : vexpr) (k : T) : mem * Outcome unit :=
  vloop (fun i m => match vat m dst i with
                    | Ret x => vstore m dst i (nmul N x k)
                    | Throw => (m, Throw) | UB => (m, UB) end) (vsize m dst) 0 m.

(** Iterator access, used by std::copy / std::fill: begin()+i of the underlying array, unchecked
    (55-69, 143-154, 202-262). *)
Fixpoint viter (m : mem) (e : vexpr) (i : nat) : Outcome T :=
  match e with
  | VW id => rd (vec m id) i
  | VB e' from _ => viter m e' (from + i)
  | VS e' k => x <- viter m e' i ;; Ret (nmul N x k)
  end.
Fixpoint viter_store (m : mem) (e : vexpr) (i : nat) (v : T) : mem * Outcome unit :=
  match e with
  | VW id => if i <? length (vec m id) then (upd m id (upd (vec m id) i v), Ret tt) else (m, UB)
  | VB e' from _ => viter_store m e' (from + i) v
  | VS _ _ => (m, UB)
  end.

(** std::vector::resize(n): truncates, or appends value-initialised elements (75-77). *)
Definition vresize (n : nat) (l : list T) : list T := firstn n l ++ repeat (n0 N) (n - length l).

(** std::copy( that.begin(), that.end(), this->begin() ), element by element (95, 174). *)
Definition vcopy (m : mem) (dst src : vexpr) (count : nat) : mem * Outcome unit :=
  vloop (fun i m => match viter m src i with
                    | Ret x => viter_store m dst i x
                    | Throw => (m, Throw) | UB => (m, UB) end) count 0 m.

(** assign: 92-96 (VectorData: resize, then copy), 170-176 (Block: ASSERT on the size, then copy);
    reached from operator= 324-338, whose test for self-assignment of the very same object only skips
    a copy of the elements onto themselves. *)
Definition vassign (m : mem) (dst src : vexpr) : mem * Outcome unit :=
  match dst with
  | VW id => let n := vsize m src in
             let m' := upd m id (vresize n (vec m id)) in
             vcopy m' dst src n
  | VB _ _ _ => vcopy m dst src (vsize m src)
  | VS _ _ => (m, UB)
  end.

(** dot, 366-373: result += this->at(i) * that.at(i) for i below this->size(). *)
Definition vdot (m : mem) (a b : vexpr) : Outcome T :=
  ofor 0 (vsize m a) (fun i s => x <- vat m a i ;; y <- vat m b i ;; Ret (nadd N s (nmul N x y))) (n0 N).

(** Range-for over a vector: the iterator values from begin() to end() (400-403, 409-411, 417-419). *)
Fixpoint vread_ (m : mem) (e : vexpr) (count i : nat) : Outcome (list T) :=
  match count with
  | O => Ret []
  | S c => x <- viter m e i ;; r <- vread_ m e c (S i) ;; Ret (x :: r)
  end.
Definition vread (m : mem) (e : vexpr) : Outcome (list T) := vread_ m e (vsize m e) 0.

(** std::max(a,b) = (a<b) ? b : a *)
Definition nmax (a b : T) : T := if nltb N a b then b else a.
(** infNorm 399-405 *)
Definition vinfnorm (m : mem) (a : vexpr) : Outcome T :=
  xs <- vread m a ;; Ret (fold_left (fun s x => nmax s (nabs N x)) xs (n0 N)).
(** oneNorm 407-413 *)
Definition vonenorm (m : mem) (a : vexpr) : Outcome T :=
  xs <- vread m a ;; Ret (fold_left (fun s x => nadd N s (nabs N x)) xs (n0 N)).
(** euclideanNormSquare 415-421 *)
Definition veuclsq (m : mem) (a : vexpr) : Outcome T :=
  xs <- vread m a ;; Ret (fold_left (fun s x => nadd N s (nmul N x x)) xs (n0 N)).

(** clone() and the converting constructor (395-397, 315-317): a new vector object (at the end of memory)
    of the source's size, then std::copy. *)
Definition vclone (m : mem) (src : vexpr) : mem * Outcome nat :=
  let id := length m in
  match vcopy (m ++ [repeat (n0 N) (vsize m src)]) (VW id) src (vsize m src) with
  | (m', Ret _) => (m', Ret id)
  | (m', Throw) => (m', Throw)
  | (m', UB) => (m', UB)
  end.
(** operator+ / operator- 428-441: clone, then += / -=.  The result object is the clone. *)
Definition vplus (m : mem) (a b : vexpr) : mem * Outcome nat :=
  match vclone m a with
  | (m', Ret id) => match vpluseq m' (VW id) b with
                    | (m'', Ret _) => (m'', Ret id) | (m'', Throw) => (m'', Throw) | (m'', UB) => (m'', UB) end
  | r => r
  end.
Definition vminus (m : mem) (a b : vexpr) : mem * Outcome nat :=
  match vclone m a with
  | (m', Ret id) => match vminuseq m' (VW id) b with
                    | (m'', Ret _) => (m'', Ret id) | (m'', Throw) => (m'', Throw) | (m'', UB) => (m'', UB) end
  | r => r
  end.
End Vec.
Arguments VW {N} id.
Arguments VB {N} e from size.
Arguments VS {N} e k.
Arguments vec {N} m id.
Arguments vsize {N} m e.
Arguments vat {N} m e i.
Arguments vread {N} m e.
Arguments vpluseq {N} m dst src.
Arguments vminuseq {N} m dst src.
Arguments vtimeseq {N} m dst k.
Arguments vassign {N} m dst src.
Arguments vdot {N} m a b.
Arguments vinfnorm {N} m a.
Arguments vonenorm {N} m a.
Arguments veuclsq {N} m a.
Arguments vclone {N} m src.
Arguments vplus {N} m a b.
Arguments vminus {N} m a b.
