(** VOps.v - vector operations at the level of values.
    VectorTemplate.h: += 341-347, -= 350-356, *= 358-363, scaled 389-393, infNorm 399-405, euclideanNormSquare 415-421,
    operator+/- 428-441, block 375-387.  These are the values computed by the operations of VecModel.v (the same
    loops over whole vectors); a right operand that is too short throws.  An operation interrupted by an exception leaves a partly
    updated vector, which the classes modelled with these operations never use afterwards except where stated. *)
From Coq Require Import List Arith Bool.
From Verif Require Import Base VecModel.
Import ListNotations.

Section VOps.
Context {N : Num}.
Notation T := (nT N).
Notation vec := (list T).
Fixpoint lzip (op : T -> T -> T) (a b : vec) : Outcome vec :=
  match a with
  | [] => Ret []
  | x :: a' => match b with
               | [] => Throw
               | y :: b' => l <- lzip op a' b' ;; Ret (op x y :: l)
               end
  end.
Definition ladd (a b : vec) : Outcome vec := lzip (nadd N) a b.
Definition lsub (a b : vec) : Outcome vec := lzip (nsub N) a b.
Definition lscale (a : vec) (k : T) : vec := map (fun x => nmul N x k) a.
Definition linf (a : vec) : T := fold_left (fun s x => nmax N s (nabs N x)) a (n0 N).
Definition lnorm2 (a : vec) : T := fold_left (fun s x => nadd N s (nmul N x x)) a (n0 N).
End VOps.
