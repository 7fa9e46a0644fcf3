(** Base.v - common vocabulary of the model: number systems, failure outcomes, arrays.
    Nothing in this file models a particular source file; it fixes how C++ notions are represented. *)
From Coq Require Import List Arith Lia ZArith QArith Qcanon Bool.
Import ListNotations.

(** * Outcomes of C++ code: normal return, exception, undefined behaviour *)
Inductive Outcome (A : Type) : Type :=
| Ret (a : A)     (* normal return *)
| Throw           (* a C++ exception is thrown *)
| UB.             (* undefined behaviour: out-of-bounds access, null dereference, ... *)
Arguments Ret {A} _.
Arguments Throw {A}.
Arguments UB {A}.

Definition obind {A B} (x : Outcome A) (f : A -> Outcome B) : Outcome B :=
  match x with Ret a => f a | Throw => Throw | UB => UB end.

(** * Number systems
    An arbitrary carrier with arbitrary operations.  No law is assumed, so a theorem stated for every
    [Num] holds in particular for IEEE doubles with rounding, infinities and NaN. *)
Record Num : Type := mkNum {
  nT : Type;
  n0 : nT;                       (* value_type() *)
  n1 : nT;
  nadd : nT -> nT -> nT;
  nsub : nT -> nT -> nT;
  nmul : nT -> nT -> nT;
  ndiv : nT -> nT -> nT;
  nopp : nT -> nT;
  nabs : nT -> nT;               (* std::fabs *)
  neqb : nT -> nT -> bool;       (* operator== *)
  nltb : nT -> nT -> bool;       (* operator<  *)
  nleb : nT -> nT -> bool        (* operator<= *)
}.

(** Exact arithmetic: canonical rationals. *)
Definition Qcltb (a b : Qc) : bool := match Qccompare a b with Lt => true | _ => false end.
Definition Qcleb (a b : Qc) : bool := match Qccompare a b with Gt => false | _ => true end.
Definition Qceqb (a b : Qc) : bool := match Qccompare a b with Eq => true | _ => false end.
Definition Qcabs (a : Qc) : Qc := if Qcltb a 0 then Qcopp a else a.
Definition Qcmaxb (a b : Qc) : Qc := if Qcltb a b then b else a.   (* std::max *)

Definition QcNum : Num :=
  mkNum Qc (Q2Qc 0) (Q2Qc 1) Qcplus Qcminus Qcmult Qcdiv Qcopp Qcabs Qceqb Qcltb Qcleb.

(** Exact arithmetic with a NaN: [None] is NaN.  Division by zero gives NaN (infinities are merged into
    NaN); every comparison with NaN is false. *)
Definition lift1 (f : Qc -> Qc) (a : option Qc) : option Qc := option_map f a.
Definition lift2 (f : Qc -> Qc -> Qc) (a b : option Qc) : option Qc :=
  match a, b with Some x, Some y => Some (f x y) | _, _ => None end.
Definition cmp2 (f : Qc -> Qc -> bool) (a b : option Qc) : bool :=
  match a, b with Some x, Some y => f x y | _, _ => false end.
Definition nandiv (a b : option Qc) : option Qc :=
  match a, b with
  | Some x, Some y => if Qceqb y 0 then None else Some (Qcdiv x y)
  | _, _ => None end.
Definition NanNum : Num :=
  mkNum (option Qc) (Some (Q2Qc 0)) (Some (Q2Qc 1)) (lift2 Qcplus) (lift2 Qcminus) (lift2 Qcmult) nandiv
        (lift1 Qcopp) (lift1 Qcabs) (cmp2 Qceqb) (cmp2 Qcltb) (cmp2 Qcleb).

(** * Arrays as lists *)
Fixpoint upd {A} (l : list A) (i : nat) (v : A) : list A :=
  match l, i with
  | [], _ => []
  | _ :: t, O => v :: t
  | a :: t, S i' => a :: upd t i' v
  end.

(** Apply [f i] for [i = 0 .. n-1] in order to a state: models  for( i=0; i<n; ++i ) body. *)
Fixpoint forn {S} (n : nat) (f : nat -> S -> S) (s : S) : S :=
  match n with
  | O => s
  | Datatypes.S n' => f n' (forn n' f s)
  end.

(** for( i=a; i<b; ++i ) body *)
Definition forab {S} (a b : nat) (f : nat -> S -> S) (s : S) : S :=
  forn (b - a) (fun k => f (a + k)%nat) s.

Fixpoint ofold {A S} (f : S -> A -> Outcome S) (l : list A) (s : S) : Outcome S :=
  match l with
  | [] => Ret s
  | a :: t => obind (f s a) (ofold f t)
  end.

(** Sum of f 0 + ... + f (n-1) in the rationals (specification vocabulary). *)
Fixpoint qsum (n : nat) (f : nat -> Qc) : Qc :=
  match n with O => 0 | S n' => qsum n' f + f n' end%Qc.

Fixpoint qsuml (l : list Qc) : Qc :=
  match l with [] => 0 | a :: t => a + qsuml t end%Qc.

(** rational literal  a/b *)
Definition qc (a : Z) (b : positive) : Qc := Q2Qc (a # b).

(** * Sequencing and loops with outcomes *)
Notation "x <- e ;; f" := (obind e (fun x => f)) (at level 61, e at next level, right associativity).

(** Unchecked array access ([operator[]] of std::vector, raw pointers): out of range is undefined. *)
Definition rd {A} (l : list A) (i : nat) : Outcome A :=
  match nth_error l i with Some a => Ret a | None => UB end.
Definition wr {A} (l : list A) (i : nat) (v : A) : Outcome (list A) :=
  if Nat.ltb i (length l) then Ret (upd l i v) else UB.

(** Checked array access ([at] of std::vector): out of range throws. *)
Definition rdat {A} (l : list A) (i : nat) : Outcome A :=
  match nth_error l i with Some a => Ret a | None => Throw end.
Definition wrat {A} (l : list A) (i : nat) (v : A) : Outcome (list A) :=
  if Nat.ltb i (length l) then Ret (upd l i v) else Throw.

(** for( i=a; count iterations ) body *)
Fixpoint ofor_ {S} (count a : nat) (body : nat -> S -> Outcome S) (s : S) : Outcome S :=
  match count with
  | O => Ret s
  | Datatypes.S count' => obind (body a s) (ofor_ count' (Datatypes.S a) body)
  end.
(** for( i=a; i<b; ++i ) body *)
Definition ofor {S} (a b : nat) (body : nat -> S -> Outcome S) (s : S) : Outcome S :=
  ofor_ (b - a) a body s.
(** for( i=n-1; i>=0; --i ) body *)
Definition ofor_down {S} (n : nat) (body : nat -> S -> Outcome S) (s : S) : Outcome S :=
  ofor 0 n (fun k => body (n - 1 - k)%nat) s.
