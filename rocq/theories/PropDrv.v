(** PropDrv.v - C46, C52, C62: integration runs, error calculation, configuration. *)
From Coq Require Import List Arith Bool ZArith QArith Qcanon String.
From Verif Require Import Base SpModel RkModel RkSpec UtilModel OutModel OutSpec DrvModel DrvSpec DrvFacts DrvFacts2.
Import ListNotations.
Local Open Scope nat_scope.

(** C52.  The run returns normally exactly after the first step (one at least) at whose end the time is not before the end time; the attempts of all its steps are reported in order. *)
Theorem C52_stopping : forall (S : Type) (sv : odesolver S) (fuel : nat) (tend : Qc) (s s' : S) (l : list obs),
  sv_loop sv fuel tend s = Some (s', l, Ret tt) <->
  exists k states atts, 1 <= k <= fuel /\ steps_through sv s k states atts /\ s' = states k /\ l = attempts_of k atts /\
    (forall i, 1 <= i < k -> (sv_time sv (states i) < tend)%Qc) /\ (tend <= sv_time sv (states k))%Qc.
Proof. exact @loop_iff. Qed.
Print Assumptions C52_stopping.
(** C52.  For every duration and every step size h > 0 there is exactly one number of steps of this size covering the duration. *)
Theorem C52_cover : forall D h : Qc, (0 < h)%Qc -> exists k, steps_to_cover D h k /\ forall k', steps_to_cover D h k' -> k' = k.
Proof. exact cover_once. Qed.
Print Assumptions C52_cover.
(** C52.  A solver whose steps succeed and move the time by h > 0 is stepped exactly that often. *)
Theorem C52_fixed_step : forall (S : Type) (sv : odesolver S) (I : S -> Prop) (D h : Qc) (k : nat) (s : S), steps_well sv I (fun d => d = h) -> I s -> steps_to_cover D h k ->
  exists states atts, steps_through sv s k states atts /\ I (states k) /\ (sv_time sv (states k) = sv_time sv s + natQ k * h)%Qc /\
  forall fuel, k <= fuel -> sv_loop sv fuel (sv_time sv s + D)%Qc s = Some (states k, attempts_of k atts, Ret tt).
Proof. exact @fixed_driver. Qed.
Print Assumptions C52_fixed_step.
(** C52.  A solver whose steps succeed and move the time by at least d > 0 finishes after at most as many steps as of size d would be needed. *)
Theorem C52_termination : forall (S : Type) (sv : odesolver S) (I : S -> Prop) (D d : Qc) (k : nat) (s : S), (0 < d)%Qc -> steps_well sv I (fun x => d <= x)%Qc -> I s -> steps_to_cover D d k ->
  exists m s' l, 1 <= m <= k /\ (sv_time sv s + D <= sv_time sv s')%Qc /\ forall fuel, m <= fuel -> sv_loop sv fuel (sv_time sv s + D)%Qc s = Some (s', l, Ret tt).
Proof. exact @bounded_driver. Qed.
Print Assumptions C52_termination.
(** C52.  A solver whose steps never move the time forward is stepped for ever. *)
Theorem C52_endless : forall (S : Type) (sv : odesolver S) (I : S -> Prop) (D : Qc) (s : S), steps_well sv I (fun d => d <= 0)%Qc -> I s -> (0 < D)%Qc -> forall fuel, sv_loop sv fuel (sv_time sv s + D)%Qc s = None.
Proof. exact @endless_driver. Qed.
Print Assumptions C52_endless.
(** C52.  When no step is shorter than the duration (in particular for a duration of zero or less), exactly one step is made. *)
Theorem C52_one_step : forall (S : Type) (sv : odesolver S) (I : S -> Prop) (D : Qc) (s : S), steps_well sv I (fun d => (D <= d)%Qc) -> I s ->
  exists s' l, sv_step sv s = (s', l, Ret tt) /\ forall fuel, 1 <= fuel -> sv_loop sv fuel (sv_time sv s + D)%Qc s = Some (s', l, Ret tt).
Proof. exact @short_driver. Qed.
Print Assumptions C52_one_step.
(** C52.  In a run that returns normally each output option is called once before and once after the integration, in between every attempt is reported. *)
Theorem C52_outputs : forall (S : Type) (sv : odesolver S) (outs : list nat) (D : Qc) (fuel : nat) (s s' : S) (e : list oevent), solveOde sv true outs D fuel s = Some (s', e, Ret tt) ->
  exists l, sv_loop sv fuel (sv_time sv s + D)%Qc s = Some (s', l, Ret tt) /\ e = map OBefore outs ++ map OAttempt l ++ map OAfter outs /\ befores e = outs /\ seen e = l /\ afters e = outs.
Proof. exact @outputs_ok. Qed.
Print Assumptions C52_outputs.
(** C52.  When a step throws, the options were called before the integration and are not called after it. *)
Theorem C52_outputs_on_exception : forall (S : Type) (sv : odesolver S) (outs : list nat) (D : Qc) (fuel : nat) (s s' : S) (e : list oevent) (r : Outcome unit), solveOde sv true outs D fuel s = Some (s', e, r) -> r <> Ret tt -> befores e = outs /\ afters e = [].
Proof. exact @outputs_fail. Qed.
Print Assumptions C52_outputs_on_exception.
(** C52.  The explicit Runge-Kutta solver: k steps of the textbook method from the initial state, one report for each. *)
Theorem C52_runge_kutta : forall (W : Type) (f : W -> Qc -> list Qc -> Outcome (list Qc)) (co : coeffs QcNum) (stages n : nat) (h : Qc) (w : W),
  wf_table co stages 1 -> co_last co = (-1)%Z -> good_rhs (N:=QcNum) n (f w) ->
  forall (t0 : Qc) (x0 : list Qc) (s0 : rkst QcNum W) (D : Qc) (outs : list nat) (k : nat), rk_w s0 = w -> List.length x0 = n -> (0 < h)%Qc -> steps_to_cover D h k ->
  exists (s' : rkst QcNum W) (l : list obs) (traj : nat -> Qc * list Qc),
    (forall fuel, k <= fuel -> solveOde (rk_solver no_events f co n h) true outs D fuel (rk_set (N:=QcNum) no_events t0 x0 s0) = Some (s', map OBefore outs ++ map OAttempt l ++ map OAfter outs, Ret tt)) /\
    traj 0 = (t0, x0) /\ (forall i, i < k -> textbook_step co stages n (f w) h (traj i) (traj (S i))) /\ (rk_t s', rk_x s') = traj k /\ rk_t s' = (t0 + natQ k * h)%Qc /\
    l = map (fun i => mkObs (fst (traj (S i))) (snd (traj (S i))) (mkPost (N:=QcNum) h true false false 0%Qc None 0%Z)) (seq 0 k).
Proof. exact @rk_driver. Qed.
Print Assumptions C52_runge_kutta.
(** C52.  With a step size of zero or less and a positive duration it never returns. *)
Theorem C52_runge_kutta_endless : forall (W : Type) (f : W -> Qc -> list Qc -> Outcome (list Qc)) (co : coeffs QcNum) (stages n : nat) (h : Qc) (w : W),
  wf_table co stages 1 -> co_last co = (-1)%Z -> good_rhs (N:=QcNum) n (f w) ->
  forall (t0 : Qc) (x0 : list Qc) (s0 : rkst QcNum W) (D : Qc) (outs : list nat) (fuel : nat), rk_w s0 = w -> List.length x0 = n -> (h <= 0)%Qc -> (0 < D)%Qc ->
  solveOde (rk_solver no_events f co n h) true outs D fuel (rk_set (N:=QcNum) no_events t0 x0 s0) = None.
Proof. exact @rk_endless. Qed.
Print Assumptions C52_runge_kutta_endless.

(** C62.  After a successful application the solver has the time and state of the initial state component, if it is a specified one (then its size is that of the right-hand side), otherwise the given ones; the reference solver has the same. *)
Theorem C62_apply : forall (c : config) (t0 : Qc) (x0 : list Qc) (a : Qc * list Qc) (b : option (Qc * list Qc)), apply_config c t0 x0 = Ret (a, b) ->
  cf_solver c = true /\ b = (if cf_ref c then Some a else None) /\
  (match cf_init c with
   | Some (ty, t, x) => if String.eqb ty "sim_dyn_initial" then a = (t0, x0) else a = (t, x) /\ cf_rhs c = Some (List.length x)
   | None => a = (t0, x0) end).
Proof. exact apply_ok. Qed.
Print Assumptions C62_apply.
(** C62.  It throws exactly when there is no solver, or the specified state has another size than the right-hand side. *)
Theorem C62_apply_throws : forall (c : config) (t0 : Qc) (x0 : list Qc),
  apply_config c t0 x0 = Throw <-> cf_solver c = false \/ exists ty t x n, cf_init c = Some (ty, t, x) /\ ty <> "sim_dyn_initial"%string /\ cf_rhs c = Some n /\ List.length x <> n.
Proof. exact apply_throws. Qed.
Print Assumptions C62_apply_throws.

(** C46.  If the error of the full step is d and that of the two half steps d / 2^p, the reported vector is the exact solution minus the result of the full step. *)
Theorem C46_exact : forall (p n : nat) (x1 x2 xs : list Qc) (d : nat -> Qc), 1 <= p -> List.length x1 = n -> List.length x2 = n -> List.length xs = n ->
  (forall i, i < n -> cmp_ x2 i = (cmp_ xs i + d i)%Qc /\ cmp_ x1 i = (cmp_ xs i + d i / qpow2 p)%Qc) ->
  exists e, ric_error p x1 x2 = Ret e /\ List.length e = n /\ forall i, i < n -> cmp_ e i = (cmp_ xs i - cmp_ x2 i)%Qc.
Proof. exact ric_exact. Qed.
Print Assumptions C46_exact.
(** C46.  For every explicit Runge-Kutta method of order p and polynomial right-hand sides of degree p in the time the reported error is the true one. *)
Theorem C46_polynomial : forall (W : Type) (co : coeffs QcNum) (stages n p : nat) (a : nat -> nat -> Qc) (c h t : Qc) (x : list Qc) (s : Qc * rkst QcNum W),
  wf_table co stages 1 -> co_last co = (-1)%Z -> 1 <= p -> order_conditions co stages 0 p -> row_sums co stages -> List.length x = n ->
  exists s' x1 x2 e, ric_pass (rk_ric no_events (fun _ : W => poly_rhs n (S p) a c) co n) p h t x s = Ret (s', x1, Some e) /\
    textbook_step co stages n (poly_rhs n (S p) a c) h (t, x) ((t + h)%Qc, x2) /\ List.length e = n /\ forall i, i < n -> cmp_ e i = ((cmp_ x i + poly_flow (S p) a c t h i) - cmp_ x2 i)%Qc.
Proof. exact @ric_poly. Qed.
Print Assumptions C46_polynomial.
(** C46.  A sample is taken exactly when all attempts of the three steps were accepted and not truncated; a change of the step size throws. *)
Theorem C46_samples : forall (S : Type) (rs : ricsolver S) (p : nat) (h t : Qc) (x : list Qc) (s s1 s2 s3 s4 s5 : S) (l1 l2 l3 : list (postarg QcNum)),
  ri_set rs t x s = Ret s1 -> ri_step rs (ri_size rs (qc 1 2 * h)%Qc s1) = Ret (s2, l1) -> ri_step rs s2 = Ret (s3, l2) -> ri_set rs t x s3 = Ret s4 -> ri_step rs (ri_size rs h s4) = Ret (s5, l3) ->
  (Exists (fun a => pa_changed (N:=QcNum) a = true) (l1 ++ l2 ++ l3) -> ric_pass rs p h t x s = Throw) /\
  (undisturbed (l1 ++ l2 ++ l3) -> ric_pass rs p h t x s = (e <- ric_error p (ri_get rs s3) (ri_get rs s5) ;; Ret (s5, ri_get rs s3, Some e))) /\
  (Forall (fun a => pa_changed (N:=QcNum) a = false) (l1 ++ l2 ++ l3) -> Exists (fun a => pa_accepted (N:=QcNum) a = false \/ pa_trunc (N:=QcNum) a = true) (l1 ++ l2 ++ l3) -> ric_pass rs p h t x s = Ret (s5, ri_get rs s3, None)).
Proof. exact @pass_calls. Qed.
Print Assumptions C46_samples.
(** C46.  The calculation makes as many passes of length h as cover T, each starting from the result of the half steps of the previous one; the statistics are those of the reported errors. *)
Theorem C46_run : forall (S : Type) (rs : ricsolver S) (p : nat) (h T t0 : Qc) (fuel : nat) (s s' : S) (st : estats) (l : list (Qc * list Qc)),
  calculateError rs fuel p T h t0 s = Some (Ret (s', st, l)) <->
  exists k xs ss es, k <= fuel /\ steps_to_cover T h k /\ passes rs p h t0 (ri_get rs s) s k xs ss es /\ s' = ss k /\ l = reports h t0 k es /\ es_run (map snd l) (es_new (List.length (ri_get rs s))) = (st, Ret tt).
Proof. exact @ric_iff. Qed.
Print Assumptions C46_run.
(** C46.  With an explicit Runge-Kutta solver it returns, with one report for each pass. *)
Theorem C46_run_runge_kutta : forall (W : Type) (f : W -> Qc -> list Qc -> Outcome (list Qc)) (co : coeffs QcNum) (stages n : nat) (w : W),
  wf_table co stages 1 -> co_last co = (-1)%Z -> good_rhs (N:=QcNum) n (f w) ->
  forall (p : nat) (h T t0 : Qc) (s : Qc * rkst QcNum W) (k fuel : nat), rk_w (snd s) = w -> List.length (rk_x (snd s)) = n -> steps_to_cover T h k -> k <= fuel ->
  exists s' st l, calculateError (rk_ric no_events f co n) fuel p T h t0 s = Some (Ret (s', st, l)) /\ List.length l = k /\ (forall i, i < k -> exists e, nth_error l i = Some ((t0 + natQ i * h)%Qc, e) /\ List.length e = n).
Proof. exact @rk_run. Qed.
Print Assumptions C46_run_runge_kutta.
(** C46.  With h <= 0 < T it never returns. *)
Theorem C46_endless : forall (W : Type) (f : W -> Qc -> list Qc -> Outcome (list Qc)) (co : coeffs QcNum) (stages n : nat) (w : W),
  wf_table co stages 1 -> co_last co = (-1)%Z -> good_rhs (N:=QcNum) n (f w) ->
  forall (p : nat) (h T t0 : Qc) (s : Qc * rkst QcNum W), rk_w (snd s) = w -> List.length (rk_x (snd s)) = n -> (h <= 0)%Qc -> (0 < T)%Qc -> forall fuel, calculateError (rk_ric no_events f co n) fuel p T h t0 s = None.
Proof. exact @rk_endless_run. Qed.
Print Assumptions C46_endless.
