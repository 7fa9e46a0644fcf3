(** PropDom.v - C07, C42: matrices the solvers need no pivoting for. *)
From Coq Require Import List Arith ZArith QArith Qcanon.
From Verif Require Import Base LUSpec LUModel OrdFacts SpFacts4 RosModel RosSpec RosFacts4 RosFacts5 DomSpec DomFacts.
Local Open Scope nat_scope.

(** C07.  A matrix whose rows are dominated by the diagonal meets the condition of C07: no leading block is singular. *)
Theorem C07_row_dominant : forall (n : nat) (A : nat -> nat -> Qc), row_dominant n A -> leading_nonsingular n A.
Proof. exact row_nonsingular. Qed.
Print Assumptions C07_row_dominant.
(** C07.  The same for the columns. *)
Theorem C07_column_dominant : forall (n : nat) (A : nat -> nat -> Qc), column_dominant n A -> leading_nonsingular n A.
Proof. exact col_nonsingular. Qed.
Print Assumptions C07_column_dominant.
(** C07.  The same for positive definite matrices, symmetric or not. *)
Theorem C07_positive_definite : forall (n : nat) (A : nat -> nat -> Qc), positive_definite n A -> leading_nonsingular n A.
Proof. exact definite_nonsingular. Qed.
Print Assumptions C07_positive_definite.
(** C07.  For the three classes the solver returns the one solution of the system. *)
Theorem C07_classes_solve : forall (e : entries) (n : nat) (st : lu) (b : list Qc), distinct_keys e -> acceptable e n -> setMatrix e = Ret st ->
  row_dominant n (mval e) \/ column_dominant n (mval e) \/ positive_definite n (mval e) -> stencil_covers e n -> length b = n ->
  exists (st' : lu) (x : list Qc), solve st b = Ret (st', x) /\ length x = n /\ solves n (mval e) (vfun x) (vfun b) /\
    forall y, solves n (mval e) y (vfun b) -> forall i, i < n -> y i = vfun x i.
Proof. exact classes_solve. Qed.
Print Assumptions C07_classes_solve.
(** C42.  linSolve of the Rosenbrock solvers works when hd is small compared with the Jacobian, or for any hd when the Jacobian is dissipative. *)
Theorem C42_easy_solve : forall (l : list rcall) (hd : Qc) (b : list Qc), proper l -> requested l = Some hd -> hd <> 0%Qc ->
  (forall i, i < ro_m (ros_hist l) -> (qsum (ro_m (ros_hist l)) (fun j => Qcabs (hd * J1_ (ros_hist l) i j + hd * hd * J2_ (ros_hist l) i j)) < 1)%Qc) \/
  (forall x, (form (ro_m (ros_hist l)) (fun i j => hd * J1_ (ros_hist l) i j + hd * hd * J2_ (ros_hist l) i j) x <= 0)%Qc) ->
  stencil_covers (w_stencil (ro_m (ros_hist l)) (J1_ (ros_hist l)) (J2_ (ros_hist l))) (ro_m (ros_hist l)) -> length b = ro_n (ros_hist l) -> 0 < ro_m (ros_hist l) ->
  exists (r' : ros) (x : list Qc), ros_linSolve b hd (ros_hist l) = Ret (r', x) /\ length x = ro_n (ros_hist l) /\
    solves (ro_n (ros_hist l)) (shifted hd (jac (ros_hist l))) (vfun x) (vfun b).
Proof. exact hist_easy. Qed.
Print Assumptions C42_easy_solve.
