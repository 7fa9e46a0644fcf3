(** RetFacts2.v - parameters of parts whose owner is missing. *)
From Coq Require Import List Arith Bool ZArith String.
From Verif Require Import Base SMap FacModel ParModel CfgModel InitModel PersModel.
Import ListNotations.
Local Open Scope string_scope.

Theorem missing_owner : forall (real : Type) (zero : real) (lit : Z -> Z -> real) (stod : string -> Outcome real) (r : registry) (n : string) (v : pval) (a1 a2 a3 a4 a5 a6 a7 a8 : fval),
  n = "jtrim" /\ a5 = FC None \/ In n ["jacobian"; "jtrim"] /\ a4 = FC None \/ In n ["ddir"; "jacobian"; "jtrim"; "linsearch"; "err"] /\ a1 = FC None ->
  let t := Comp NewtonSolver [("itperf", a1); ("regularizer", a2); ("max_iterations", a3); ("ddir", a4); ("jacobian", a5); ("jtrim", a6); ("linsearch", a7); ("err", a8)] in
  setParameters zero lit stod r [(n, v)] t = (t, Ret tt).
Proof.
  intros real zero lit stod r n v a1 a2 a3 a4 a5 a6 a7 a8 H t. subst t.
  destruct H as [[-> ->]|[[H ->]|[H ->]]]; [| simpl in H; destruct H as [<-|[<-|[]]] | simpl in H; destruct H as [<-|[<-|[<-|[<-|[<-|[]]]]]]];
  try destruct a1; try destruct a4; try destruct a5; repeat match goal with o : option _ |- _ => destruct o end; reflexivity.
Qed.
