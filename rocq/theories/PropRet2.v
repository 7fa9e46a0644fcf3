(** PropRet2.v - C76: parameters of parts whose owner is missing. *)
From Coq Require Import List Arith Bool ZArith String.
From Verif Require Import Base SMap FacModel ParModel CfgModel InitModel PersModel RetFacts2.
Import ListNotations.
Local Open Scope string_scope.

(** C76.  A Newton solver without a Jacobian provider ignores the trimmer parameter, without a direction also that of the provider, and without an iteration performer those of all
    the performer's parts - whatever class they name. *)
Theorem C76_missing_owner : forall (real : Type) (zero : real) (lit : Z -> Z -> real) (stod : string -> Outcome real) (r : registry) (n : string) (v : pval) (a1 a2 a3 a4 a5 a6 a7 a8 : fval),
  n = "jtrim" /\ a5 = FC None \/ In n ["jacobian"; "jtrim"] /\ a4 = FC None \/ In n ["ddir"; "jacobian"; "jtrim"; "linsearch"; "err"] /\ a1 = FC None ->
  let t := Comp NewtonSolver [("itperf", a1); ("regularizer", a2); ("max_iterations", a3); ("ddir", a4); ("jacobian", a5); ("jtrim", a6); ("linsearch", a7); ("err", a8)] in
  setParameters zero lit stod r [(n, v)] t = (t, Ret tt).
Proof. exact missing_owner. Qed.
Print Assumptions C76_missing_owner.
