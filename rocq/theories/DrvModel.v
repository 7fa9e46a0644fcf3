(** DrvModel.v - model of ode/OdeSolverConfiguration.h (apply, initOdeOutput, finalizeOdeOutput, solveOde) and ode/util/RichardsonErrorCalculator.h.
    Exact arithmetic. *)
From Coq Require Import List Arith Bool ZArith QArith Qcanon String.
From Verif Require Import Base VOps SpModel RkModel StepModel UtilModel OutModel.
Import ListNotations.
Local Open Scope nat_scope.
Local Notation length := List.length (only parsing).

(** * A solver for the driver: doStep gives the new state, what the post-step observers were told (one or more attempts) and whether it returned.
      Simplification: doStep is total; a doStep that never returns is not represented. *)
Record odesolver (S : Type) : Type := mkSolver { sv_time : S -> Qc; sv_state : S -> list Qc; sv_step : S -> S * list obs * Outcome unit }.
Arguments sv_time {S} _ _.
Arguments sv_state {S} _ _.
Arguments sv_step {S} _ _.
Arguments mkSolver {S} _ _ _.
(** do ... while of solveOde 352-356.  None: more passes than the fuel *)
Fixpoint sv_loop {S} (sv : odesolver S) (fuel : nat) (tend : Qc) (s : S) : option (S * list obs * Outcome unit) :=
  match fuel with
  | O => None
  | Datatypes.S f =>
      match sv_step sv s with
      | (s', l, Ret _) =>
          if Qcltb (sv_time sv s') tend
          then match sv_loop sv f tend s' with Some (s2, l2, r) => Some (s2, l ++ l2, r) | None => None end
          else Some (s', l, Ret tt)
      | (s', l, r) => Some (s', l, r)
      end
  end.
(** What the output options are told *)
Inductive oevent : Type := OBefore (k : nat) | OAttempt (o : obs) | OAfter (k : nat).
(** initOdeOutput 309-326: statistics, console, file, those which are set *)
Definition collect (stats con file : bool) : list nat := (if stats then [0] else []) ++ (if con then [1] else []) ++ (if file then [2] else []).
(** solveOde 336-358.  The options' own exceptions are not modelled. *)
Definition solveOde {S} (sv : odesolver S) (has_rhs : bool) (outs : list nat) (duration : Qc) (fuel : nat) (s : S) : option (S * list oevent * Outcome unit) :=
  if has_rhs then
    match sv_loop sv fuel (sv_time sv s + duration)%Qc s with
    | None => None
    | Some (s', l, Ret _) => Some (s', map OBefore outs ++ map OAttempt l ++ map OAfter outs, Ret tt)
    | Some (s', l, r) => Some (s', map OBefore outs ++ map OAttempt l, r)
    end
  else Some (s, [], Throw).

(** The explicit Runge-Kutta solver (RkModel.v) and the embedded one (StepModel.v; an unfinished doStep counts as undefined) for the driver *)
Definition rk_solver {W} (ev : events QcNum W) (f : W -> Qc -> list Qc -> Outcome (list Qc)) (co : coeffs QcNum) (n : nat) (h : Qc) : odesolver (rkst QcNum W) :=
  mkSolver (fun s : rkst QcNum W => rk_t s : Qc) (fun s => rk_x s : list Qc)
    (fun s => match rk_step (N:=QcNum) ev f co n h s with
              | Ret (s', _, a) => (s', [mkObs (rk_t s') (rk_x s') a], Ret tt)
              | Throw => (s, [], Throw) | UB => (s, [], UB)
              end).

(** * OdeSolverConfiguration::apply 226-285 *)
(** varCount of the right-hand side if there is one; initial state component: type identifier, time, state *)
Record config : Type := mkCfg { cf_solver : bool; cf_ref : bool; cf_rhs : option nat; cf_init : option (string * Qc * list Qc) }.
(** configureSolver 244-271: the arguments of setInitialState; without a right-hand side varCount 259 is called through a null pointer.
    FormatInt of the sizes in the message is not modelled. *)
Definition configure (c : config) (t0 : Qc) (x0 : list Qc) : Outcome (Qc * list Qc) :=
  match cf_init c with
  | Some (ty, t, x) =>
      if String.eqb ty "sim_dyn_initial" then Ret (t0, x0)
      else match cf_rhs c with
           | None => UB
           | Some n => if length x =? n then Ret (t, x) else Throw
           end
  | None => Ret (t0, x0)
  end.
(** The state given to the solver and to the reference solver, if there is one *)
Definition apply_config (c : config) (t0 : Qc) (x0 : list Qc) : Outcome ((Qc * list Qc) * option (Qc * list Qc)) :=
  if cf_solver c then
    a <- configure c t0 x0 ;; if cf_ref c then b <- configure c t0 x0 ;; Ret (a, Some b) else Ret (a, None)
  else Throw.

(** * RichardsonErrorCalculator::calculateError 31-82 *)
(** The solver: setInitialState( t, x, true ), setInitialStepSize, doStep with what the post-observers were told, initialState *)
Record ricsolver (S : Type) : Type := mkRic {
  ri_set : Qc -> list Qc -> S -> Outcome S; ri_size : Qc -> S -> S; ri_step : S -> Outcome (S * list (postarg QcNum)); ri_get : S -> list Qc }.
Arguments ri_set {S} _ _ _ _.
Arguments ri_size {S} _ _ _.
Arguments ri_step {S} _ _.
Arguments ri_get {S} _ _.
Arguments mkRic {S} _ _ _ _.
(** factor 44: 1 << p.  p = 0 (an infinite factor) and p >= 31 (undefined) are outside the model. *)
Definition qpow2 (p : nat) : Qc := Q2Qc (inject_Z (2 ^ Z.of_nat p)).
Definition ric_factor (p : nat) : Qc := (qpow2 p / (qpow2 p - 1))%Qc.
(** the post-observer 47-54: throws if the step size changed, otherwise tells whether to skip *)
Definition watch (l : list (postarg QcNum)) : Outcome bool :=
  if existsb (fun a => pa_changed (N:=QcNum) a) l then Throw
  else Ret (existsb (fun a => negb (pa_accepted (N:=QcNum) a) || pa_trunc (N:=QcNum) a) l).
(** 57-68 *)
Definition ric_states {S} (rs : ricsolver S) (h t : Qc) (x : list Qc) (s : S) : Outcome (S * list Qc * list Qc * bool) :=
  s1 <- ri_set rs t x s ;;
  r1 <- ri_step rs (ri_size rs (qc 1 2 * h)%Qc s1) ;; k1 <- watch (snd r1) ;;
  r2 <- ri_step rs (fst r1) ;; k2 <- watch (snd r2) ;;
  let x1 := ri_get rs (fst r2) in
  s2 <- ri_set rs t x (fst r2) ;;
  r3 <- ri_step rs (ri_size rs h s2) ;; k3 <- watch (snd r3) ;;
  Ret (fst r3, x1, ri_get rs (fst r3), k1 || k2 || k3).
(** 70-72: V error of size n is assigned x1 *)
Definition ric_error (p : nat) (x1 x2 : list Qc) : Outcome (list Qc) :=
  d <- lsub (N:=QcNum) x1 x2 ;; Ret (map (fun v => v * ric_factor p)%Qc d).
Definition ric_pass {S} (rs : ricsolver S) (p : nat) (h t : Qc) (x : list Qc) (s : S) : Outcome (S * list Qc * option (list Qc)) :=
  r <- ric_states rs h t x s ;;
  let '(s', x1, x2, skip) := r in
  if skip then Ret (s', x1, None) else e <- ric_error p x1 x2 ;; Ret (s', x1, Some e).
(** the loop 55-80; the reports are the arguments of the step observers 74 *)
Fixpoint ric_loop {S} (rs : ricsolver S) (fuel p : nat) (h tend t : Qc) (x : list Qc) (st : estats) (s : S) : option (Outcome (S * estats * list (Qc * list Qc))) :=
  match fuel with
  | O => None
  | Datatypes.S f =>
      match ric_pass rs p h t x s with
      | Throw => Some Throw
      | UB => Some UB
      | Ret (s', x1, oe) =>
          let next st' reps :=
            if Qcltb (t + h)%Qc tend
            then match ric_loop rs f p h tend (t + h)%Qc x1 st' s' with
                 | Some (Ret (s2, st2, l)) => Some (Ret (s2, st2, reps ++ l)) | r => r
                 end
            else Some (Ret (s', st', reps)) in
          match oe with
          | None => next st []
          | Some e => match es_add e st with
                      | (st', Ret _) => next st' [(t, e)]
                      | (_, Throw) => Some Throw
                      | (_, UB) => Some UB
                      end
          end
      end
  end.
(** 36-43, 55-81: x0, t0 are the solver's state and time *)
Definition calculateError {S} (rs : ricsolver S) (fuel p : nat) (T h t0 : Qc) (s : S) : option (Outcome (S * estats * list (Qc * list Qc))) :=
  let x0 := ri_get rs s in ric_loop rs fuel p h (t0 + T)%Qc t0 x0 (es_new (length x0)) s.
(** The explicit Runge-Kutta solver: state = initial step size and solver object *)
Definition rk_ric {W} (ev : events QcNum W) (f : W -> Qc -> list Qc -> Outcome (list Qc)) (co : coeffs QcNum) (n : nat) : ricsolver (Qc * rkst QcNum W) :=
  mkRic (fun t x s => Ret (fst s, rk_set (N:=QcNum) ev t x (snd s))) (fun h s => (h, snd s))
        (fun s => r <- rk_step (N:=QcNum) ev f co n (fst s) (snd s) ;; let '(s', _, a) := r in Ret ((fst s, s'), [a])) (fun s => rk_x (snd s) : list Qc).
