(** ExRet2.v - concrete cases for PropRet2.v. *)
From Coq Require Import List Arith Bool ZArith String.
From Verif Require Import Base SMap FacModel ParModel CfgModel InitModel PersModel ExPers PropRet2.
Import ListNotations.
Local Open Scope string_scope.

(** A solver as C76_performer_resets leaves it: a name that is no class is not noticed; in a complete solver it is. *)
Definition bare : comp (real:=Z) := Comp NewtonSolver [("itperf", FC None); ("regularizer", FC None); ("max_iterations", FU 20%Z); ("ddir", FC None); ("jacobian", FC None); ("jtrim", FC None); ("linsearch", FC None); ("err", FC None)].
Example C76_missing_owner_case : setParameters 0%Z zlit zread lib [("jtrim", PV "no such class" None)] bare = (bare, Ret tt) /\
  snd (setParameters 0%Z zlit zread lib [("jtrim", PV "no such class" None)] (newton_part None)) = Throw.
Proof. split; vm_compute; reflexivity. Qed.
