(** PropMore2.v - further property theorems (C06, C39). *)
From Coq Require Import List Arith Bool ZArith QArith Qcanon.
From Verif Require Import Base SMap SpModel LUModel VecModel VOps RkModel RkSpec StepSpec ExtModel ExtSpec MoreFacts2.
Import ListNotations.
Local Open Scope nat_scope.

(** C06.  setMatrix with a matrix that is not square changes nothing; when it throws because of the diagonal, the object has the new dimension but the
    old elements, still with or without factorization. *)
Theorem C06_failed_call : forall (st : lu) (e : entries),
  (mat_nr e <> mat_nc e -> setMatrix e = Throw /\ setMatrix_after_throw st e = st) /\
  (mat_nr e = mat_nc e -> let st' := setMatrix_after_throw st e in
     ul st' = ul st /\ uu st' = uu st /\ ufact st' = ufact st /\ yal (ulay st') = yal (ulay st) /\ yau (ulay st') = yau (ulay st) /\ length (yp (ulay st')) = mat_nr e).
Proof. exact failed_call. Qed.
Print Assumptions C06_failed_call.
(** C39.  setInitialState alone, in the middle of any run: the reported state is the given one, and the midpoint rule starts there with the step size of before. *)
Theorem C39_set_only : forall (W : Type) (f : W -> Qc -> list Qc -> Outcome (list Qc)) (n : nat) (w : W) (t : Qc) (x : list Qc), good_rhs (N:=QcNum) n (f w) -> length x = n ->
  forall count (s : gst QcNum W), g_w s = w ->
  g_state (N:=QcNum) true (1 / qn 2)%Qc (g_set (N:=QcNum) t x s) = Ret x /\
  exists s' y slope, g_steps (N:=QcNum) no_events f (qn 2) count (g_set (N:=QcNum) t x s) = Some s' /\
    y 0 = x /\ midpoint n (f w) t (g_h s) y slope (2 * count) /\ g_t s' = (t + qn count * g_h s)%Qc /\ g_u s' = y (2 * count) /\ g_w s' = w.
Proof. exact @set_only. Qed.
Print Assumptions C39_set_only.
