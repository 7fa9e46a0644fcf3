(** VecSpec.v - vocabulary for the statements about vectors. *)
From Coq Require Import List Arith.
From Verif Require Import Base VecModel.
Import ListNotations.

Section VecSpec.
Context {N : Num}.
Notation T := (nT N).

(** Element k of vector object id. *)
Definition cell (m : mem N) (id k : nat) : option T := nth_error (vec m id) k.

(** The vector object a view finally refers to, and where its element 0 is in it. *)
Fixpoint vbase (e : vexpr N) : nat :=
  match e with VW id => id | VB e' _ _ => vbase e' | VS e' _ => vbase e' end.
Fixpoint voff (e : vexpr N) : nat :=
  match e with VW _ => 0 | VB e' from _ => from + voff e' | VS e' _ => voff e' end.

(** A vector or a block of a block ... of a vector (not scaled): something that can be assigned to. *)
Fixpoint assignable (e : vexpr N) : Prop :=
  match e with VW _ => True | VB e' _ _ => assignable e' | VS _ _ => False end.

(** The object exists and every block lies inside its source. *)
Fixpoint well_formed (m : mem N) (e : vexpr N) : Prop :=
  match e with
  | VW id => id < length m
  | VB e' from s => well_formed m e' /\ from + s <= vsize m e'
  | VS e' _ => well_formed m e'
  end.

(** Executing  dst[i] op= src[i]  for i = 0, 1, ... never reads an element of src that was already
    overwritten: different vectors, or dst starts at or before src, or src ends before dst starts. *)
Definition order_safe (m : mem N) (dst src : vexpr N) : Prop :=
  vbase dst <> vbase src \/ voff dst <= voff src \/ voff src + vsize m dst <= voff dst.

(** Apart from the elements of dst, nothing changed: sizes of all vectors and all other elements. *)
Definition only_changes (m m' : mem N) (dst : vexpr N) : Prop :=
  length m' = length m /\
  (forall id, length (vec m' id) = length (vec m id)) /\
  (forall id k, id <> vbase dst \/ k < voff dst \/ voff dst + vsize m dst <= k -> cell m' id k = cell m id k).

(** m' is m with vector id replaced by l. *)
Definition replaced (m m' : mem N) (id : nat) (l : list T) : Prop :=
  length m' = length m /\ vec m' id = l /\ forall j, j <> id -> vec m' j = vec m j.

(** e's elements are exactly l. *)
Definition elements (m : mem N) (e : vexpr N) (l : list T) : Prop :=
  vsize m e = length l /\ forall i, i < length l -> vat m e i = match nth_error l i with Some x => Ret x | None => UB end.
End VecSpec.
