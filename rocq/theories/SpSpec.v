(** SpSpec.v - vocabulary for the statements about sparse matrices. *)
From Coq Require Import List Arith Bool QArith Qcanon.
From Verif Require Import Base SMap SpModel.
Import ListNotations.
Local Open Scope nat_scope.

Section SpSpec.
Context {N : Num}.
Notation T := (nT N).

(** Row-major order on positions. *)
Definition before (a b : key) : Prop := fst a < fst b \/ (fst a = fst b /\ snd a < snd b).
(** A sequence of stored elements visits every position at most once, in row-major order. *)
Fixpoint row_major (d : list (key * T)) : Prop :=
  match d with
  | [] => True
  | (k, _) :: t => (forall k' x, In (k', x) t -> before k k') /\ row_major t
  end.

(** ** C02: what a history of edits says about one position p, without reference to any container.
    State: current size of the matrix and the value at p (None: nothing stored). *)
Definition pos_step (p : key) (st : key * option T) (o : sop N) : key * option T :=
  let '(sz, cur) := st in
  match o with
  | OpUpd q f => if keqb2 q p then (sz, Some (f (match cur with Some x => x | None => n0 N end))) else st
  | OpRemove q => if keqb2 q p then (sz, None) else st
  | OpResize s => if keqb2 sz s then st
                  else (s, if (fst p <? fst s) && (snd p <? snd s) then cur else None)
  | OpClear => (sz, None)
  | OpZero => (sz, match cur with Some _ => Some (n0 N) | None => None end)
  end.
Definition pos_history (s0 : key) (h : list (sop N)) (p : key) : key * option T :=
  fold_left (pos_step p) h (s0, None).

(** An operation that cannot affect position p. *)
Definition leaves_alone (p : key) (o : sop N) : Prop :=
  match o with
  | OpUpd q _ => q <> p
  | OpRemove q => q <> p
  | OpResize s => fst p < fst s /\ snd p < snd s
  | OpClear => False
  | OpZero => False
  end.

(** ** Memories of matrices *)
(** Every matrix object is stored in row-major order without duplicates (std::map; an array assigned from one). *)
Definition mems_ok (m : mems N) : Prop := forall id, row_major (sdat (obj m id)).
(** Index p of view e really designates an element of its source (block indices below the block's size). *)
Fixpoint presents (e : sexpr N) (p : key) : Prop :=
  match e with
  | SW _ => True
  | SBk e' f s => (fst p < fst s /\ snd p < snd s) /\ presents e' (fst p + fst f, snd p + snd f)
  | STr e' => presents e' (snd p, fst p)
  | SSc e' _ => presents e' p
  end.
(** All elements the view presents are inside its declared size, and all positions inside it are presented. *)
Definition in_range (m : mems N) (e : sexpr N) : Prop :=
  (forall p x, In (p, x) (siter m e) -> fst p < fst (ssize m e) /\ snd p < snd (ssize m e)) /\
  (forall p, fst p < fst (ssize m e) -> snd p < snd (ssize m e) -> presents e p).
(** All objects but [id] are as before. *)
Definition others_same (m m' : mems N) (id : nat) : Prop :=
  length m' = length m /\ forall j, j <> id -> obj m' j = obj m j.
(** Left operands operator* works with: a map-backed matrix, or blocks and scalings of one. *)
Fixpoint row_capable (m : mems N) (e : sexpr N) : bool :=
  match e with SW id => negb (fast (obj m id)) | SBk e' _ _ => row_capable m e' | STr _ => false | SSc e' _ => row_capable m e' end.
End SpSpec.
