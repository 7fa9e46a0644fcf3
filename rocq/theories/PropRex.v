(** PropRex.v - C82: exceptions in steps of the Rosenbrock solvers, and starting again. *)
From Coq Require Import List Arith Bool ZArith QArith Qcanon.
From Verif Require Import Base SMap SpModel LUSpec LUModel RkModel RkSpec StepModel RosModel RosSpec RexFacts2.
Import ListNotations.
Local Open Scope nat_scope.
(** C82.  After any use of the solver, with any exceptions, a hard setInitialState starts afresh: the next step of W1 is accepted and is that of the method, with a new Jacobian. *)
Theorem C82_w1_restart : forall (W : Type) (ev : events QcNum W) (c : rcfg W) (f : Qc -> list Qc -> Outcome (list Qc)), r_safe ev c f ->
  forall (s : rst W) (t : Qc) (x : list Qc), used s -> length x = rc_n c -> (q_h s * rc_d c)%Qc <> 0%Qc ->
  solvable (q_ros (fst (q_init c true (w1_set t x false s)))) (q_h s * rc_d c)%Qc ->
  exists (s' : rst W) (a : postarg QcNum), w1_step ev c (w1_set t x false s) = (s', AAccepted a) /\ pa_h a = q_h s /\
   (pa_trunc a = false -> exists f0 k1 : list Qc, f t x = Ret f0 /\
     (forall i k, i < rc_n c -> k < rc_n c -> jac (q_ros s') i k = if i <? rc_n2 c then delta (rc_n2 c + i) k else if k <? rc_n2 c + rc_n1 c then difference f t x f0 i k else 0%Qc) /\
     q_t s' = (t + q_h s)%Qc /\ q_h s' = q_h s /\ w1_formula (rc_n c) (jac (q_ros s')) (q_h s * rc_d c) x f0 (q_h s) k1 (q_x s')).
Proof. exact @w1_restart_ok. Qed.
Print Assumptions C82_w1_restart.
(** C82.  The same for SW2(4): the first attempt does not fail, and an accepted step is that of the method. *)
Theorem C82_sw_restart : forall (W : Type) (ev : events QcNum W) (c : rcfg W) (f : Qc -> list Qc -> Outcome (list Qc)), r_safe ev c f ->
  forall (s : rst W) (t : Qc) (x : list Qc) (s1 : rst W), used s -> length x = rc_n c -> (q_h s * rc_d c)%Qc <> 0%Qc ->
  sw_set c t x false s = (s1, Ret tt) -> solvable (q_ros (fst (q_init c false s1))) (q_h s * rc_d c)%Qc ->
  (forall s' o, sw_attempt ev c true s1 = (s', o) -> o <> AThrow /\ o <> AUb) /\
  (forall fuel s' l a, sw_step ev c fuel s1 = (s', l, Some (AAccepted a)) -> pa_trunc a = false -> solvable (q_ros s') (q_h s * rc_d c)%Qc -> rc_n2 c = 0 \/ length l = 1 ->
   exists f0 k1 k2 : list Qc, f t x = Ret f0 /\
     (forall i k, i < rc_n c -> k < rc_n c -> jac (q_ros s') i k = if i <? rc_n2 c then delta (rc_n2 c + i) k else if k <? rc_n2 c + rc_n1 c then difference f t x f0 i k else 0%Qc) /\
     q_t s' = (t + pa_h a)%Qc /\ (length l = 1 -> pa_h a = q_h s) /\
     sw_formula (rc_n c) (jac (q_ros s')) (q_h s * rc_d c) (pa_h a * rc_d c) f t x f0 (pa_h a) k1 k2 (q_x s')).
Proof. exact @sw_restart_ok. Qed.
Print Assumptions C82_sw_restart.
(** C82.  A step of W1 that throws leaves time, state and step size as they were, wherever the exception comes from. *)
Theorem C82_w1_throw : forall (W : Type) (ev : events QcNum W) (c : rcfg W) (s s' : rst W), w1_step ev c s = (s', AThrow) -> q_t s' = q_t s /\ q_x s' = q_x s /\ q_h s' = q_h s.
Proof. exact @w1_throw_keeps. Qed.
Print Assumptions C82_w1_throw.
(** C82.  An attempt of SW2(4) that throws leaves time and state as they were, unless an event cut the step and the right-hand side throws where it was cut. *)
Theorem C82_sw_throw : forall (W : Type) (ev : events QcNum W) (c : rcfg W) (b : bool) (s s' : rst W), sw_attempt ev c b s = (s', AThrow) ->
  (q_t s' = q_t s /\ q_x s' = q_x s) \/
  (exists x2 t2 w w' e, ev_end ev (q_x s) x2 t2 w = Ret (w', e) /\ ev_trunc e = true /\ q_t s' = ev_t e /\ q_x s' = ev_x e /\ rc_rhs c w' (ev_t e) (ev_x e) = Throw).
Proof. exact @attempt_throw_keeps. Qed.
Print Assumptions C82_sw_throw.
(** C82.  Retrying the first step of a solver after its right-hand side has thrown, without a new setInitialState, is undefined, however well-behaved everything has become. *)
Theorem C82_w1_retry : forall (W : Type) (ev : events QcNum W) (c c' : rcfg W) (f : Qc -> list Qc -> Outcome (list Qc)) (w : W) (h t : Qc) (x : list Qc),
  r_safe ev c' f -> rc_n c = rc_n c' -> length x = rc_n c' -> rc_rhs c w t x = Throw ->
  exists s1, w1_step ev c (w1_set t x false (q_setStep h (q_new w))) = (s1, AThrow) /\ q_t s1 = t /\ q_x s1 = x /\ snd (w1_step ev c' s1) = AUb.
Proof. exact @w1_retry. Qed.
Print Assumptions C82_w1_retry.
Theorem C82_sw_retry : forall (W : Type) (ev : events QcNum W) (c c' : rcfg W) (f : Qc -> list Qc -> Outcome (list Qc)) (w : W) (h t : Qc) (x : list Qc) (fuel : nat),
  r_safe ev c' f -> rc_n c = rc_n c' -> length x = rc_n c' -> rc_rhs c w t x = Throw -> 0 < fuel ->
  exists s1, sw_step ev c fuel (fst (sw_set c t x false (q_setStep h (q_new w)))) = (s1, [], Some AThrow) /\ q_t s1 = t /\ q_x s1 = x /\ snd (sw_step ev c' fuel s1) = Some AUb.
Proof. exact @sw_retry. Qed.
Print Assumptions C82_sw_retry.
