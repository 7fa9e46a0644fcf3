(** PropStep.v - properties of step size control and adaptive stepping (C35, C36). *)
From Coq Require Import List Arith Bool ZArith QArith Qcanon Reals.
From Verif Require Import Base VecModel VOps RkModel RkSpec StepModel StepSpec StepFacts StepFacts2.
Import ListNotations.
Local Open Scope R_scope.

(** C35: for every tolerance, error, step size and method order: a step whose error norm does not exceed the tolerance is accepted; ... *)
Theorem C35_within_tolerance : forall (s : scset RNum) (h err : R) (n : nat), 0 < sc_tol s -> 0 <= err -> err <= sc_tol s -> accepted (controlR s h err n) = true.
Proof. exact within_tolerance. Qed.
Print Assumptions C35_within_tolerance.
(** ... it is accepted exactly if the error, times the (n+1)-th power of the slack factor 1 - 1e-5, is below the tolerance. *)
Theorem C35_accepted_iff : forall (s : scset RNum) (h err : R) (n : nat), 0 < sc_tol s -> 0 <= err ->
  (accepted (controlR s h err n) = true <-> (1 - geom_eps) ^ S n * err < sc_tol s).
Proof. exact accept_iff. Qed.
Print Assumptions C35_accepted_iff.
(** The step after an accepted one is never shorter, grows by no more than inc_max_factor, and not beyond max_threshold (unless it is already longer: then it stays). *)
Theorem C35_accepted_step : forall (s : scset RNum) (h err : R) (n : nat), sensible s -> 0 <= err -> 0 < h -> accepted (controlR s h err n) = true ->
  h <= newStep (controlR s h err n) /\ (0 < sc_incMax s -> newStep (controlR s h err n) <= Rmax 1 (sc_incMax s) * h) /\
  (0 < sc_maxThr s -> newStep (controlR s h err n) <= Rmax h (sc_maxThr s)) /\
  (changed (controlR s h err n) = false -> newStep (controlR s h err n) = h).
Proof. exact accepted_step. Qed.
Print Assumptions C35_accepted_step.
(** A rejected step is always changed: it shrinks, at least by the factor [shrink s] < 1, by no more than dec_max_factor, and stays positive. *)
Theorem C35_rejected_step : forall (s : scset RNum) (h err : R) (n : nat), sensible s -> 0 < h -> accepted (controlR s h err n) = false ->
  changed (controlR s h err n) = true /\ newStep (controlR s h err n) <= shrink s * h /\ shrink s < 1 /\
  0 < newStep (controlR s h err n) /\ sc_decMax s * h <= newStep (controlR s h err n).
Proof. exact rejected_step. Qed.
Print Assumptions C35_rejected_step.
(** The size asked for: with p the solution of p^(n+1) * err = tol, the step p * insurance * h, capped. *)
Theorem C35_new_size : forall (s : scset RNum) (h err : R) (n : nat), sensible s -> 0 < h -> 0 < err -> changed (controlR s h err n) = true ->
  exists p, 0 < p /\ p ^ S n * err = sc_tol s /\
    (accepted (controlR s h err n) = true -> newStep (controlR s h err n) =
       Rmin (Rmin (h * (p * sc_ins s)) (if Req_EM_T (sc_maxThr s) 0 then h * (p * sc_ins s) else sc_maxThr s)) (if Req_EM_T (sc_incMax s) 0 then h * (p * sc_ins s) else h * sc_incMax s)) /\
    (accepted (controlR s h err n) = false -> newStep (controlR s h err n) = h * Rmax (p * sc_ins s) (sc_decMax s)).
Proof. exact step_value. Qed.
Print Assumptions C35_new_size.

(** C36: in any arithmetic, with any event controller, right-hand side, error norm and step size controller, and for every number of passes:
    the observers are told the attempts in order, each of the size asked for after the one before; all but the last were refused and did not
    move the solver; if the call returns, exactly the last was accepted and the solver moved to the end of that step (or to an event in it);
    if a callback throws, the solver has not moved; if it is still running it has not moved either.
    A call that fails because the step size fell to the minimum has not moved, except when that happened after an accepted step. *)
Theorem C36_attempts : forall (N : Num) (W : Type) (ev : events N W) f (c : erkcfg N) (fuel : nat) (s s' : rkst N W) posts r, erk_step ev f c fuel s = (s', posts, r) ->
  sizes c (first_size c s) posts /\
  exists rejected, Forall (refused c) rejected /\
  match r with
  | Some (AAccepted a) => posts = rejected ++ [a] /\ pa_accepted a = true /\ pa_changed a = asks c (pa_h a) (pa_err a) /\ verdict c (pa_h a) (pa_err a) = true /\ moved ev s s' (pa_h a) (pa_trunc a) /\
       first_size c s' = Some (after_size c (pa_h a) (pa_err a) (pa_trunc a))
  | Some ATooSmall => posts = rejected /\ exists h err, sizes c (first_size c s) (posts ++ [mkPost h true true true err None 0%Z]) /\ below_min c h err = true /\
                      first_size c s' = Some (next_size c h err) /\
                      (if verdict c h err then exists trunc, moved ev s s' h trunc else unmoved s s')
  | Some AThrow => posts = rejected /\ unmoved s s'
  | None => posts = rejected /\ unmoved s s' /\ length posts = fuel
  | Some (ARejected _) => False
  | Some AUb => posts = rejected
  end.
Proof. exact @trace. Qed.
Print Assumptions C36_attempts.
(** In exact arithmetic without events: every attempt, accepted or not, is the textbook step from the starting point, with the norm of the difference of its two
    results as the error; an accepted one advances time by exactly its size.  The solver is ready for the next call, so this holds for every history of calls. *)
Theorem C36_exact : forall (W : Type) (f : W -> Qc -> list Qc -> Outcome (list Qc)) (c : erkcfg QcNum) (stages n : nat) (w : W),
  wf_table (e_co c) stages 2 -> shortcut_ok (e_co c) stages -> e_n c = n -> (e_mode c < 2)%nat -> e_nocheck c = false ->
  (forall d, length d = n -> exists e, e_norm c d = Ret e) -> good_rhs (N:=QcNum) n (f w) ->
  forall fuel (s s' : rkst QcNum W) posts r, rk_w s = w -> erk_ready stages n s -> erk_step (N:=QcNum) no_events f c fuel s = (s', posts, r) ->
  let es h y err := embedded_step (e_co c) stages n (e_mode c) (f w) (e_norm c) h (rk_t s) (rk_x s) y err in
  erk_ready stages n s' /\ rk_w s' = w /\ sizes c (first_size c s) posts /\
  exists rejected, Forall (fun a => refused c a /\ exists y, es (pa_h a) y (pa_err a)) rejected /\
  match r with
  | Some (AAccepted a) => posts = rejected ++ [a] /\ pa_accepted a = true /\ pa_trunc a = false /\ verdict c (pa_h a) (pa_err a) = true /\
       rk_t s' = (rk_t s + pa_h a)%Qc /\ es (pa_h a) (rk_x s') (pa_err a)
  | Some ATooSmall => posts = rejected /\ exists h err y, es h y err /\ below_min c h err = true /\
       (if verdict c h err then rk_t s' = (rk_t s + h)%Qc /\ rk_x s' = y else unmoved s s')
  | None => posts = rejected /\ unmoved s s' /\ length posts = fuel
  | _ => False
  end.
Proof. exact @adaptive. Qed.
Print Assumptions C36_exact.
(** setInitialState makes the solver ready, whatever it did before. *)
Theorem C36_set_ready : forall (N : Num) (W : Type) (ev : events N W) t x (s : rkst N W) stages n, length x = n -> erk_ready stages n (erk_set ev t x s).
Proof. exact @set_ready. Qed.
Print Assumptions C36_set_ready.
(** The number of attempts: if every refusal shrinks the step at least by the factor rho < 1 and the minimum step size is positive, a call makes at most k + 1 attempts
    as soon as rho^k times the first step size does not exceed the minimum. *)
Theorem C36_attempts_bounded : forall (W : Type) (ev : events RNum W) f (c : erkcfg RNum) (rho : R), 0 < e_hmin c -> 0 <= rho < 1 ->
  (forall h err, 0 < h -> verdict c h err = false -> snd (e_sc c h err) = true /\ fst (fst (e_sc c h err)) <= rho * h) ->
  forall k (s : rkst RNum W) h, first_size c s = Some h -> rho ^ k * h <= e_hmin c -> 0 < h ->
  exists r, snd (erk_step ev f c (S k) s) = Some r.
Proof. exact @attempts_bounded. Qed.
Print Assumptions C36_attempts_bounded.
(** With the library's controller and sensible settings, every call ends. *)
Theorem C36_terminates : forall (W : Type) (ev : events RNum W) f (c : erkcfg RNum) (q : scset RNum) order (s : rkst RNum W) h,
  0 < e_hmin c -> sensible q -> e_sc c = (fun h err => controlR q h err order) -> first_size c s = Some h -> 0 < h ->
  exists fuel r, snd (erk_step ev f c fuel s) = Some r.
Proof. exact @attempts_simple. Qed.
Print Assumptions C36_terminates.
(** No call has undefined behaviour, in any arithmetic, if the callbacks have none. *)
Theorem C36_defined : forall (N : Num) (W : Type) (ev : events N W) f (c : erkcfg N) (stages n : nat),
  wf_table (e_co c) stages 2 -> e_n c = n -> (e_mode c < 2)%nat -> (forall d, length d = n -> e_norm c d <> UB) -> (forall w, safe_rhs n (f w)) ->
  (forall x t w, ev_start ev x t w <> UB) /\ (forall x y t w, length x = n -> length y = n -> ev_end ev x y t w <> UB) ->
  forall fuel (s s' : rkst N W) posts r, erk_ready stages n s -> erk_step ev f c fuel s = (s', posts, r) -> r <> Some AUb.
Proof. exact @step_safe. Qed.
Print Assumptions C36_defined.
