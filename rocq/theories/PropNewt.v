(** PropNewt.v - property theorems about the Newton solver (C25-C28).  Only statements closed by lemmas. *)
From Coq Require Import List Arith QArith Qcanon.
From Verif Require Import Base SMap SpModel MapModel JacModel JacSpec VOps LUModel LUSpec NewtModel NewtSpec NewtFacts NewtFacts2 NewtFacts3 NewtFacts4 NewtFacts5 NewtFacts6.
Import ListNotations.
Local Open Scope nat_scope.

(** * C25: line search *)
(** For every arithmetic whose comparison is a strict order on the numbers it orders (NaN allowed), every mapping, point
    and direction: the trials are 1, 1/2, 1/4, ... (forward), then -1, -1/2, ... (reverse), at most [max] each; every
    trial is an evaluation of the mapping; reverse is tried only if all forward trials failed to improve; the search
    stops at the first trial with ratio below eta; the result is 0 with the residual untouched, when no trial improved,
    or the best trial, with its residual. *)
Theorem C25_line_search : forall (N : Num) (lit : ls_lit N) (g : vmapping N) (dir x0 f0 : list (nT N)), ls_order lit ->
  forall (max : nat) (res : list (nT N)) (alpha : nT N) (res' : list (nT N)) (log : list (nT N * nT N)),
  lineSearch lit max g dir x0 f0 res = Ret (alpha, res', log) ->
  exists fw bw nf nb, log = fw ++ bw /\ map fst fw = map (halved lit (n1 N)) (seq 0 nf) /\ map fst bw = map (halved lit (l_m1 lit)) (seq 0 nb) /\
    nf <= max /\ nb <= max /\
    (forall a r, In (a, r) log -> exists f, residual_at g dir x0 a f /\ r = ratio f f0) /\
    (0 < nb -> nf = max /\ forall e, In e fw -> ~ improves e) /\
    (nf < max -> exists pre e, fw = pre ++ [e] /\ nltb N (snd e) (l_eta lit) = true) /\
    (0 < nb < max -> exists pre e, bw = pre ++ [e] /\ nltb N (snd e) (l_eta lit) = true) /\
    (forall pre e suf, log = pre ++ e :: suf -> nltb N (snd e) (l_eta lit) = true -> suf = []) /\
    ((alpha = n0 N /\ res' = res /\ nf = max /\ nb = max /\ forall e, In e log -> ~ improves e) \/
     (exists r, In (alpha, r) log /\ improves (alpha, r) /\ residual_at g dir x0 alpha res' /\ forall e, In e log -> nltb N (snd e) r = false)).
Proof. exact @lineSearch_ok. Qed.
Print Assumptions C25_line_search.
(** The order laws hold for exact numbers and for numbers with NaN. *)
Theorem C25_laws_exact : forall lit : ls_lit QcNum, (l_eta lit <= 1)%Qc -> ls_order lit.
Proof. exact qc_ls_order. Qed.
Print Assumptions C25_laws_exact.
Theorem C25_laws_nan : forall (lit : ls_lit NanNum) (eta : Qc), l_eta lit = Some eta -> (eta <= 1)%Qc -> ls_order lit.
Proof. exact nan_ls_order. Qed.
Print Assumptions C25_laws_nan.
(** A nonzero result has a strictly smaller residual norm, even when evaluations may give NaN. *)
Theorem C25_strict_decrease : forall (lit : ls_lit NanNum) (eta : Qc) (max : nat) (g : vmapping NanNum) (dir x0 f0 res : list (option Qc)) (alpha : option Qc) (res' : list (option Qc)) log,
  l_eta lit = Some eta -> (eta <= 1)%Qc -> lineSearch lit max g dir x0 f0 res = Ret (alpha, res', log) ->
  (alpha = Some 0%Qc /\ res' = res) \/
  (residual_at g dir x0 alpha res' /\ exists a b, lnorm2 (N:=NanNum) res' = Some a /\ lnorm2 (N:=NanNum) f0 = Some b /\ (a < b)%Qc).
Proof. exact ls_nan_decrease. Qed.
Print Assumptions C25_strict_decrease.
(** A zero residual is never left. *)
Theorem C25_zero_residual : forall (lit : ls_lit NanNum) (eta : Qc) (max : nat) (g : vmapping NanNum) (dir x0 f0 res : list (option Qc)) (alpha : option Qc) (res' : list (option Qc)) log,
  l_eta lit = Some eta -> (eta <= 1)%Qc -> lineSearch lit max g dir x0 f0 res = Ret (alpha, res', log) ->
  (forall v, In v f0 -> v = Some 0%Qc) -> alpha = Some 0%Qc /\ res' = res.
Proof. exact ls_nan_zero. Qed.
Print Assumptions C25_zero_residual.

(** * C26: iteration performer *)
(** After any history of setInitialGuess, reset, currentResidual and iteration calls with one mapping, currentResidual is
    the mapping at currentSolution.  (Any arithmetic with a + b*0 = a; see C26_nan_direction_refuted.) *)
Theorem C26_residual_matches : forall (N : Num) (S : Type) (dd : ddir N S) (lit : ls_lit N) (mt : nat) (g : vmapping N), ls_order lit ->
  (forall a b, nadd N a (nmul N b (n0 N)) = a) ->
  forall (h : list pf_call) (p q : perf N) (f : list (nT N)) (q' : perf N), p_valid p = false -> e_cur (p_est p) = p_x p -> pf_hist dd lit mt g h p = Ret q ->
  pf_residual g q = Ret (f, q') -> mapf g (p_x q) = Ret f /\ p_x q' = p_x q.
Proof. exact @pf_residual_correct. Qed.
Print Assumptions C26_residual_matches.
(** One iteration after any history: the residual norm does not increase, and decreases strictly unless the step ratio is
    0, when the iterate stays and iterations do not continue; Converged only if the residual and the relative change are within the tolerances. *)
Theorem C26_iteration : forall (S : Type) (dd : ddir QcNum S) (lit : ls_lit QcNum) (mt : nat) (g : vmapping QcNum) (h : list pf_call) (p q : perf QcNum) (n : nat) (q' : perf QcNum) (st : estatus),
  ls_order lit -> p_valid p = false -> e_cur (p_est p) = p_x p ->
  pf_hist dd lit mt g h p = Ret q -> pf_iteration dd lit mt g n q = Ret (q', st) ->
  exists f f', mapf g (p_x q) = Ret f /\ mapf g (p_x q') = Ret f' /\ pf_residual g q' = Ret (f', q') /\
    ((exists v, In v f /\ v <> 0%Qc) -> (lnorm2 (N:=QcNum) f' <= lnorm2 (N:=QcNum) f)%Qc) /\
    ((exists v, In v f /\ v <> 0%Qc) -> p_ratio q' <> 0%Qc -> (lnorm2 (N:=QcNum) f' < lnorm2 (N:=QcNum) f)%Qc) /\
    (p_ratio q' = 0%Qc -> p_x q' = p_x q /\ st <> EContinue) /\
    (st = EConverged -> (forall v, In v f' -> (Qcabs v <= e_absTol (p_est q))%Qc) /\
       ((exists v, In v (p_x q) /\ v <> 0%Qc) -> forall i, i < length (p_x q') ->
          (Qcabs (nth i (p_x q') 0 - nth i (p_x q) 0) <= e_relTol (p_est q) * linf (N:=QcNum) (p_x q))%Qc)).
Proof. exact @iteration_facts. Qed.
Print Assumptions C26_iteration.

(** * C27: NewtonSolver::run *)
(** For arbitrary components: the iterations of each of at most two attempts are numbered 0, 1, ..., at most the limit
    each; observers are called once per iteration, numbered 0, 1, ... throughout; the second attempt starts from the
    solution found at the start of the run. *)
Theorem C27_iterations : forall (N : Num) (S : Type) (c : comps N S) (limit : nat) (s s' : S) (log : list (event N)) (st : nstatus),
  nrun c limit s = Ret (s', log, st) ->
  exists s0 a b, c_reset c s = Ret s0 /\ a <= limit /\ b <= limit /\
    iter_numbers log = seq 0 a ++ seq 0 b /\ obs_numbers log = seq 0 (a + b) /\ followed log /\
    (guesses log = [] /\ b = 0 \/ guesses log = [c_sol c s0]).
Proof. exact @run_summary. Qed.
Print Assumptions C27_iterations.
(** Terminated iff an observer asked for it, and then nothing follows; success is reported iff the result is Converged,
    which happens right after an iteration with status Converged and no further adjustment; Diverged only in the second
    attempt, right after a diverging iteration; limit exceeded only if the limit was reached or an iteration diverged. *)
Theorem C27_status : forall (N : Num) (S : Type) (c : comps N S) (limit : nat) (s s' : S) (log : list (event N)) (st : nstatus),
  nrun c limit s = Ret (s', log, st) ->
  (st = NTerminated <-> exists m, In (EvObs m true) log) /\ (st = NTerminated -> exists m, ends_with log [EvObs m true]) /\
  (st = NConverged <-> In true (successes log)) /\
  (st = NConverged -> exists n m, ends_with log [EvIter n EConverged; EvObs m false; EvAdjust false; EvReport true]) /\
  (st = NDiverged -> guesses log <> [] /\ exists n m, ends_with log [EvIter n EDiverged; EvObs m false; EvAdjust false; EvReport false]) /\
  (st = NLimit -> ends_with log [EvReport false] /\
     (length (iter_numbers log) >= limit \/ exists n, In (EvIter n EDiverged) log)).
Proof. exact @run_results. Qed.
Print Assumptions C27_status.
(** The log is the exact sequence of calls made to the components, each working on the state the previous one left, and
    its last state is the result.  A second attempt is made exactly when the direction object says, after the first, that
    a hard reset may help. *)
Theorem C27_calls : forall (N : Num) (S : Type) (c : comps N S) (limit : nat) (s s' : S) (log : list (event N)) (st : nstatus),
  nrun c limit s = Ret (s', log, st) ->
  exists s0, c_reset c s = Ret s0 /\ calls c log s0 s' /\
    (guesses log = [] \/ exists l1 l2 s1, log = l1 ++ EvGuess (c_sol c s0) :: l2 /\ guesses l1 = [] /\ calls c l1 s0 s1 /\ c_help c s1 = true) /\
    (st = NLimit -> guesses log = [] -> exists l1 s1, log = l1 ++ [EvReport false] /\ calls c l1 s0 s1 /\ c_help c s1 = false).
Proof. exact @run_calls. Qed.
Print Assumptions C27_calls.
(** With the iteration performer and no regularization, Converged means that the residual at the solution is within the
    absolute tolerance, for every descent direction object. *)
Theorem C27_converged_is_a_solution : forall (S : Type) (dd : ddir QcNum S) (lit : ls_lit QcNum) (mt : nat) (g : vmapping QcNum) (limit : nat) (p p' : perf QcNum) (log : list (event QcNum)),
  ls_order lit -> p_valid p = false -> e_cur (p_est p) = p_x p ->
  nrun (plain_comps dd lit mt g) limit p = Ret (p', log, NConverged) ->
  exists f, mapf g (p_x p') = Ret f /\ forall v, In v f -> (Qcabs v <= e_absTol (p_est p))%Qc.
Proof. exact @run_solution. Qed.
Print Assumptions C27_converged_is_a_solution.

(** * C28: descent direction *)
(** Any history of direction computations by one SimpleNewtonDescentDirection, reusing the factorizer's storage across
    calls with different mappings, points and stencils: each direction solves J d = -f for that call's Jacobian. *)
Theorem C28_newton_direction : forall (dx : Qc) (jt : option (trimmer QcNum)) (n : nat) (h : list dcall),
  Forall (usable dx jt n) h ->
  exists ds s', simple_hist dx jt h lu_empty = Ret (ds, s') /\ Forall2 (newton_direction dx jt n) h ds.
Proof. exact simple_hist_fresh. Qed.
Print Assumptions C28_newton_direction.
(** An affine system: the first iteration finds the root. *)
Theorem C28_affine_step : forall (n : nat) (A : nat -> nat -> Qc) (b : nat -> Qc) (F : list Qc -> list Qc) (g : vmapping QcNum) (dx : Qc) (lit : ls_lit QcNum) (mt : nat)
    (p0 : perf QcNum) (x0 : list Qc) (it : nat),
  computes g F n n -> affine n A b F -> dx <> 0%Qc -> solvable_pattern n A -> (l_eta lit <= 1)%Qc -> 0 < mt -> length x0 = n ->
  exists q st, pf_iteration (simple_dd dx None g) lit mt g it (pf_guess (simple_dd dx None g) x0 true p0) = Ret (q, st) /\
    length (p_x q) = n /\ (forall v, In v (F (p_x q)) -> v = 0%Qc).
Proof. exact affine_step_guess. Qed.
Print Assumptions C28_affine_step.
(** An affine system: run() converges to the root in at most two iterations, if the root is not so far from the initial
    guess that the relative change threshold stops it (see C28_far_root_refuted). *)
Theorem C28_affine_run : forall (n : nat) (A : nat -> nat -> Qc) (b : nat -> Qc) (F : list Qc -> list Qc) (g : vmapping QcNum) (dx : Qc) (lit : ls_lit QcNum) (mt : nat)
    (p0 : perf QcNum) (x0 : list Qc) (limit : nat),
  computes g F n n -> affine n A b F -> dx <> 0%Qc -> solvable_pattern n A -> (l_eta lit <= 1)%Qc -> 0 < mt -> length x0 = n -> 2 <= limit ->
  (0 <= e_absTol (p_est p0))%Qc -> (0 <= e_relTol (p_est p0))%Qc ->
  (forall y d, length y = n -> (forall v, In v (F y) -> v = 0%Qc) -> lsub (N:=QcNum) y x0 = Ret d ->
     (e_relMax (p_est p0) <= 0)%Qc \/ linf (N:=QcNum) x0 = 0%Qc \/ (linf (N:=QcNum) d < e_relMax (p_est p0) * linf (N:=QcNum) x0)%Qc) ->
  exists s' log, nrun (plain_comps (simple_dd dx None g) lit mt g) limit (pf_guess (simple_dd dx None g) x0 true p0) = Ret (s', log, NConverged) /\
    length (p_x s') = n /\ (forall v, In v (F (p_x s')) -> v = 0%Qc) /\ length (iter_numbers log) <= 2.
Proof. exact affine_run_guess. Qed.
Print Assumptions C28_affine_run.
