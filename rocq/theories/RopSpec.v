(** RopSpec.v - vocabulary of PropRop.v. *)
From Coq Require Import List Reals.
Local Open Scope R_scope.
(** The exact sum of f over a list. *)
Definition asum {A} (f : A -> R) (l : list A) : R := fold_right (fun a s => f a + s) 0 l.
