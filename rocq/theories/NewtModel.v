(** NewtModel.v - the Newton solver.
    Models /repo/include/ode_num_int/alg/SimpleNewtonLinearSearch.h, SimpleErrorEstimator.h, NewtonIterationPerformerImpl.h,
    NewtonSolver.h (run), SimpleNewtonDescentDirection.h and ConstJacobianNewtonDescentDirection.h.
    The quasi-Newton directions are in BroModel.v.
    Observers, which get the data but cannot influence the computation except where noted, are the returned logs.
    Iteration numbers are [nat] (no wrap-around). *)
From Coq Require Import List Arith Bool QArith Qcanon.
From Verif Require Import Base SMap SpModel MapModel JacModel VecModel VOps LUModel.
Import ListNotations.
Local Open Scope nat_scope.

Section Newt.
Context (N : Num).
Notation T := (nT N).
Notation vec := (list T).

(** * SimpleNewtonLinearSearch::lineSearch 24-81; literals 0.8 (33), 0.5 (48, 63), -1 (62) *)
Record ls_lit : Type := mkLit { l_eta : T; l_half : T; l_m1 : T }.
(** Best ratio so far, its alpha, *residual, and the trials (alpha, ratio) in order. *)
Record ls_st : Type := mkLS { ls_best : T; ls_alpha : T; ls_res : vec; ls_log : list (T * T) }.
(** makeNextState 35-41 *)
Definition ls_next (dir x0 : vec) (beta : T) : Outcome vec := ladd x0 (lscale dir beta).
(** 48-59 and 63-74; [k] truncations are still allowed.  The flag tells whether the loop was left by break. *)
Fixpoint ls_loop (lit : ls_lit) (g : vmapping N) (dir x0 : vec) (f0n2 : T) (k : nat) (alpha : T) (st : ls_st) : Outcome (ls_st * bool) :=
  match k with
  | O => Ret (st, false)
  | S k' =>
    x <- ls_next dir x0 alpha ;;
    f <- mapf g x ;;
    let r := ndiv N (lnorm2 f) f0n2 in
    let log := ls_log st ++ [(alpha, r)] in
    let st' := if nltb N r (ls_best st) then mkLS r alpha f log else mkLS (ls_best st) (ls_alpha st) (ls_res st) log in
    if nltb N (ls_best st') (l_eta lit) then Ret (st', true)
    else ls_loop lit g dir x0 f0n2 k' (nmul N alpha (l_half lit)) st'
  end.
(** Returns the step ratio, the final value of *residual and the trials. *)
Definition lineSearch (lit : ls_lit) (max : nat) (g : vmapping N) (dir x0 f0 res : vec) : Outcome (T * vec * list (T * T)) :=
  let f0n2 := lnorm2 f0 in
  r1 <- ls_loop lit g dir x0 f0n2 max (n1 N) (mkLS (n1 N) (n1 N) res []) ;;
  let (st1, brk1) := r1 in
  if negb brk1 && neqb N (ls_best st1) (n1 N) then
    r2 <- ls_loop lit g dir x0 f0n2 max (l_m1 lit) (mkLS (ls_best st1) (l_m1 lit) (ls_res st1) (ls_log st1)) ;;
    let (st2, brk2) := r2 in
    Ret (if negb brk2 && neqb N (ls_best st2) (n1 N) then n0 N else ls_alpha st2, ls_res st2, ls_log st2)
  else Ret (ls_alpha st1, ls_res st1, ls_log st1).

(** * SimpleErrorEstimator *)
Inductive estatus : Type := EConverged | EContinue | EDiverged.
Record sest : Type := mkEst { e_absTol : T; e_relTol : T; e_absMax : T; e_relMax : T; e_cur : vec; e_abs : T; e_rel : T }.
(** reset 32-37 *)
Definition est_reset (x : vec) (e : sest) : sest := mkEst (e_absTol e) (e_relTol e) (e_absMax e) (e_relMax e) x (n0 N) (n0 N).
(** setCurrentSolution 39-47 *)
Definition est_set (x f : vec) (e : sest) : Outcome sest :=
  dx <- lsub x (e_cur e) ;;
  let xn := linf (e_cur e) in
  Ret (mkEst (e_absTol e) (e_relTol e) (e_absMax e) (e_relMax e) x (linf f)
             (if nltb N (n0 N) xn then ndiv N (linf dx) xn else n0 N)).
(** currentStatus 49-58 *)
Definition est_status (e : sest) : estatus :=
  if nleb N (e_abs e) (e_absTol e) && nleb N (e_rel e) (e_relTol e) then EConverged
  else if nltb N (n0 N) (e_absMax e) && nleb N (e_absMax e) (e_abs e) then EDiverged
  else if nltb N (n0 N) (e_relMax e) && nleb N (e_relMax e) (e_rel e) then EDiverged
  else EContinue.

(** * The descent direction interface, interfaces/NewtonDescentDirection.h: an arbitrary object with state S *)
Record ddir (S : Type) : Type := mkDD {
  dd_reset : bool -> S -> S;
  dd_help : S -> bool;
  dd_dir : vec -> vec -> nat -> S -> Outcome (vec * S);
  dd_report : bool -> S -> S }.

(** * NewtonIterationPerformerImpl *)
Section Perf.
Context {S : Type} (dd : ddir S) (lit : ls_lit) (maxTrunc : nat).
Record perf : Type := mkPerf { p_x : vec; p_f : vec; p_valid : bool; p_ratio : T; p_est : sest; p_dd : S }.
(** reset 33-38 *)
Definition pf_reset (hard : bool) (p : perf) : perf :=
  mkPerf (p_x p) (p_f p) (p_valid p) (n1 N) (est_reset (p_x p) (p_est p)) (dd_reset S dd hard (p_dd p)).
(** setInitialGuess 26-31 *)
Definition pf_guess (x : vec) (hard : bool) (p : perf) : perf :=
  pf_reset hard (mkPerf x (p_f p) false (p_ratio p) (p_est p) (p_dd p)).
(** currentResidual 60-67; the mapping is called only if the stored residual is not valid *)
Definition pf_residual (g : vmapping N) (p : perf) : Outcome (vec * perf) :=
  if p_valid p then Ret (p_f p, p)
  else f <- mapf g (p_x p) ;; Ret (f, mkPerf (p_x p) f true (p_ratio p) (p_est p) (p_dd p)).
(** iteration 40-54 *)
Definition pf_iteration (g : vmapping N) (n : nat) (p : perf) : Outcome (perf * estatus) :=
  r <- pf_residual g p ;;
  let (f0, p1) := r in
  d <- dd_dir S dd (p_x p1) f0 n (p_dd p1) ;;
  let (dir, s) := d in
  l <- lineSearch lit maxTrunc g dir (p_x p1) f0 (p_f p1) ;;
  let '(ratio, f, _) := l in
  x <- ladd (p_x p1) (lscale dir ratio) ;;
  e <- est_set x f (p_est p1) ;;
  let st := est_status e in
  Ret (mkPerf x f (p_valid p1) ratio e s,
       match st with EContinue => if neqb N ratio (n0 N) then EDiverged else EContinue | _ => st end).
End Perf.

(** * NewtonSolver::run 48-97, for arbitrary components with joint state S *)
Inductive nstatus : Type := NConverged | NDiverged | NTerminated | NLimit.
Record comps (S : Type) : Type := mkComps {
  c_iter : nat -> S -> Outcome (S * estatus);          (* itperf->iteration *)
  c_obs : nat -> S -> Outcome (S * bool);              (* iterationObservers: true asks for termination *)
  c_adjust : S -> Outcome (S * bool);                  (* maybeAdjustRegularizationParameter 106-110 *)
  c_report : bool -> S -> S;                           (* ddir->reportSuccess *)
  c_help : S -> bool;                                  (* ddir->hardResetMayHelp *)
  c_guess : vec -> S -> Outcome S;                     (* setInitialGuess( x0, true ) *)
  c_reset : S -> Outcome S;                            (* itperf->reset( false ) *)
  c_sol : S -> vec }.                                  (* currentSolution *)
Inductive event : Type :=
| EvIter (n : nat) (st : estatus) | EvObs (n : nat) (stop : bool) | EvAdjust (again : bool) | EvReport (success : bool) | EvGuess (x : vec).
Section Run.
Context {S : Type} (c : comps S).
(** The for loop 59-84: remaining iterations k, next iteration number it.  Result: state, log, number of iterations
    made, and the status if run() returns from inside the loop. *)
Fixpoint attempt (k it bias : nat) (tried : bool) (s : S) (log : list event) : Outcome (S * list event * nat * option nstatus) :=
  match k with
  | O => Ret (s, log, it, None)
  | Datatypes.S k' =>
    r <- c_iter S c it s ;;
    o <- c_obs S c (it + bias) (fst r) ;;
    let log := log ++ [EvIter it (snd r); EvObs (it + bias) (snd o)] in
    if snd o then Ret (fst o, log, Datatypes.S it, Some NTerminated) else
    a <- c_adjust S c (fst o) ;;
    let log := log ++ [EvAdjust (snd a)] in
    match snd r with
    | EContinue => attempt k' (Datatypes.S it) bias tried (fst a) log
    | EConverged => if snd a then attempt k' (Datatypes.S it) bias tried (fst a) log
                    else Ret (c_report S c true (fst a), log ++ [EvReport true], Datatypes.S it, Some NConverged)
    | EDiverged => if snd a then attempt k' (Datatypes.S it) bias tried (fst a) log
                   else let s' := c_report S c false (fst a) in
                        Ret (s', log ++ [EvReport false], Datatypes.S it, if tried then Some NDiverged else None)
    end
  end.
Definition nrun (limit : nat) (s : S) : Outcome (S * list event * nstatus) :=
  s0 <- c_reset S c s ;;
  let x0 := c_sol S c s0 in
  r1 <- attempt limit 0 0 false s0 [] ;;
  let '(s1, log1, it1, st1) := r1 in
  match st1 with
  | Some st => Ret (s1, log1, st)
  | None =>
    if c_help S c s1 then
      s2 <- c_guess S c x0 s1 ;;
      r2 <- attempt limit 0 it1 true s2 (log1 ++ [EvGuess x0]) ;;
      let '(s3, log3, _, st3) := r2 in
      match st3 with
      | Some st => Ret (s3, log3, st)
      | None => Ret (c_report S c false s3, log3 ++ [EvReport false], NLimit)
      end
    else Ret (c_report S c false s1, log1 ++ [EvReport false], NLimit)
  end.
End Run.

(** The solver with NewtonIterationPerformerImpl, no observers and no regularization strategy. *)
Definition plain_comps {S : Type} (dd : ddir S) (lit : ls_lit) (maxTrunc : nat) (g : vmapping N) : comps (perf (S:=S)) :=
  mkComps _ (fun n p => pf_iteration dd lit maxTrunc g n p)
    (fun _ p => Ret (p, false)) (fun p => Ret (p, false))
    (fun b p => mkPerf (p_x p) (p_f p) (p_valid p) (p_ratio p) (p_est p) (dd_report S dd b (p_dd p)))
    (fun p => dd_help S dd (p_dd p))
    (fun x p => Ret (pf_guess dd x true p)) (fun p => Ret (pf_reset dd false p)) (fun p => p_x p).
End Newt.
Arguments mkLit {N} _ _ _.
Arguments mkLS {N} _ _ _ _.
Arguments l_eta {N} _.
Arguments l_half {N} _.
Arguments l_m1 {N} _.
Arguments ls_best {N} _.
Arguments ls_alpha {N} _.
Arguments ls_res {N} _.
Arguments ls_log {N} _.
Arguments ls_next {N} dir x0 beta.
Arguments ls_loop {N} lit g dir x0 f0n2 k alpha st.
Arguments lineSearch {N} lit max g dir x0 f0 res.
Arguments mkEst {N} _ _ _ _ _ _ _.
Arguments e_absTol {N} _.
Arguments e_relTol {N} _.
Arguments e_absMax {N} _.
Arguments e_relMax {N} _.
Arguments e_cur {N} _.
Arguments e_abs {N} _.
Arguments e_rel {N} _.
Arguments est_reset {N} x e.
Arguments est_set {N} x f e.
Arguments est_status {N} e.
Arguments mkDD {N S} _ _ _ _.
Arguments dd_reset {N S} _ _ _.
Arguments dd_help {N S} _ _.
Arguments dd_dir {N S} _ _ _ _ _.
Arguments dd_report {N S} _ _ _.
Arguments mkPerf {N S} _ _ _ _ _ _.
Arguments p_x {N S} _.
Arguments p_f {N S} _.
Arguments p_valid {N S} _.
Arguments p_ratio {N S} _.
Arguments p_est {N S} _.
Arguments p_dd {N S} _.
Arguments pf_reset {N S} dd hard p.
Arguments pf_guess {N S} dd x hard p.
Arguments pf_residual {N S} g p.
Arguments pf_iteration {N S} dd lit maxTrunc g n p.
Arguments mkComps {N S} _ _ _ _ _ _ _ _.
Arguments c_iter {N S} _ _ _.
Arguments c_obs {N S} _ _ _.
Arguments c_adjust {N S} _ _.
Arguments c_report {N S} _ _ _.
Arguments c_help {N S} _ _.
Arguments c_guess {N S} _ _ _.
Arguments c_reset {N S} _ _.
Arguments c_sol {N S} _ _.
Arguments EvIter {N} _ _.
Arguments EvObs {N} _ _.
Arguments EvAdjust {N} _.
Arguments EvReport {N} _.
Arguments EvGuess {N} _.
Arguments attempt {N S} c k it bias tried s log.
Arguments nrun {N S} c limit s.
Arguments plain_comps {N S} dd lit maxTrunc g.

(** * Descent directions with the LU solver (exact rationals) and DefaultJacobianProvider *)
(** SimpleNewtonDescentDirection: the state is m_lu.  reset 22-27 (the default provider's hardReset does nothing),
    hardResetMayHelp 29-31 (false for that provider), computeDescentDirection 33-55 *)
Definition lu_direction (lu : LUModel.lu) (f0 : list Qc) : Outcome (list Qc * LUModel.lu) :=
  r <- solve lu f0 ;; Ret (lscale (N:=QcNum) (snd r) (Qcopp 1), fst r).
Definition lu_is_empty (lu : LUModel.lu) : bool := match yp (ulay lu) with [] => true | _ => false end.
Definition simple_dir (dx : Qc) (jt : option (trimmer QcNum)) (g : vmapping QcNum) (x0 f0 : list Qc) (_ : nat) (lu : LUModel.lu)
  : Outcome (list Qc * LUModel.lu) :=
  J <- default_provider (N:=QcNum) dx jt g x0 ;;
  lu' <- (if lu_is_empty lu then setMatrix (sdat J) else setMatrixFast lu (sdat J)) ;;
  lu_direction lu' f0.
Definition simple_dd (dx : Qc) (jt : option (trimmer QcNum)) (g : vmapping QcNum) : ddir QcNum LUModel.lu :=
  mkDD (N:=QcNum) (fun hard lu => if hard then lu_empty else lu) (fun _ => false) (simple_dir dx jt g) (fun _ lu => lu).
(** ConstJacobianNewtonDescentDirection: 22-31, 33-55 *)
Definition const_dir (dx : Qc) (jt : option (trimmer QcNum)) (g : vmapping QcNum) (x0 f0 : list Qc) (_ : nat) (lu : LUModel.lu)
  : Outcome (list Qc * LUModel.lu) :=
  lu' <- (if ufact lu then Ret lu else J <- default_provider (N:=QcNum) dx jt g x0 ;; setMatrix (sdat J)) ;;
  lu_direction lu' f0.
Definition const_dd (dx : Qc) (jt : option (trimmer QcNum)) (g : vmapping QcNum) : ddir QcNum LUModel.lu :=
  mkDD (N:=QcNum) (fun hard lu => if hard then lu_empty else lu) (fun _ => true) (const_dir dx jt g) (fun _ lu => lu).
