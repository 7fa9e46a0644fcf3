(** PropImp.v - C40, C41: the implicit alpha method. *)
From Coq Require Import List Arith Bool ZArith QArith Qcanon Permutation.
From Verif Require Import Base VecModel VOps MapModel JacSpec LUModel NewtModel NewtSpec RkModel RkSpec StepModel StepSpec ExtModel ExtFacts5 ImpModel ImpSpec ImpFacts ImpFacts2 ImpFacts3 ImpFacts4 ImpFacts5.
Import ListNotations.
Local Open Scope nat_scope.

(** C40.  Whatever setters and evaluations came before, with the right-hand side kept, map computes what it would compute afresh from the current parameters. *)
Theorem C40_cache : forall (N : Num) (nd nf : nat) (f : nT N -> list (nT N) -> Outcome (list (nT N))) (l : list (ecall (N:=N))) (m0 : emap N) (x : list (nT N)),
  em_valid m0 = false -> em_value nd nf f x (em_hist f l m0) = em_value nd nf f x (em_uncached (em_hist f l m0)).
Proof. exact @cache. Qed.
Print Assumptions C40_cache.
(** C40.  The value: residuals of the equations for the velocities and first order variables. *)
Theorem C40_map : forall (nd nf : nat) (f : Qc -> list Qc -> Outcome (list Qc)) (m : emap QcNum) (x X1 F0 F1 : list Qc),
  length (em_x m : list Qc) = 2 * nd + nf -> length x = nd + nf -> em_valid m = false ->
  em_expand nd nf m x = Ret X1 -> f (em_t m) (em_x m) = Ret F0 -> f (em_t m + em_h m)%Qc X1 = Ret F1 -> length F0 = 2 * nd + nf -> length F1 = 2 * nd + nf ->
  exists (d : list Qc) (m' : emap QcNum), em_map nd nf f x m = Ret (d, m') /\ length d = nd + nf /\
    forall i, i < nd + nf -> cmp_ d i = (cmp_ X1 (nd + i)%nat - cmp_ (em_x m) (nd + i)%nat
      - em_h m * ((1 - em_alpha m) * cmp_ F0 (nd + i)%nat + em_alpha m * cmp_ F1 (nd + i)%nat))%Qc.
Proof. exact map_ok. Qed.
Print Assumptions C40_map.
(** C40.  Its zeros are the updates of the alpha method. *)
Theorem C40_root : forall (nd nf : nat) (f : Qc -> list Qc -> Outcome (list Qc)) (m : emap QcNum) (x X1 F0 F1 : list Qc),
  length (em_x m : list Qc) = 2 * nd + nf -> length x = nd + nf -> em_valid m = false ->
  em_expand nd nf m x = Ret X1 -> f (em_t m) (em_x m) = Ret F0 -> f (em_t m + em_h m)%Qc X1 = Ret F1 -> length F0 = 2 * nd + nf -> length F1 = 2 * nd + nf ->
  exists (d : list Qc) (m' : emap QcNum), em_map nd nf f x m = Ret (d, m') /\ (all_zero d <-> alpha_update nd nf (em_h m) (em_alpha m) (em_x m) F0 X1 F1).
Proof. exact root. Qed.
Print Assumptions C40_root.
(** C40.  For a right-hand side whose position slopes are the velocities, a zero is the alpha method's update of every component. *)
Theorem C40_second_order : forall (nd nf : nat) (f : Qc -> list Qc -> Outcome (list Qc)) (m : emap QcNum) (x : list Qc),
  second_order nd nf f -> length (em_x m : list Qc) = 2 * nd + nf -> length x = nd + nf -> em_valid m = false ->
  exists (X1 F0 F1 d : list Qc) (m' : emap QcNum), em_expand nd nf m x = Ret X1 /\ f (em_t m) (em_x m) = Ret F0 /\ f (em_t m + em_h m)%Qc X1 = Ret F1 /\
    em_map nd nf f x m = Ret (d, m') /\
    (all_zero d <-> forall j, j < 2 * nd + nf -> cmp_ X1 j = (cmp_ (em_x m) j + em_h m * ((1 - em_alpha m) * cmp_ F0 j + em_alpha m * cmp_ F1 j))%Qc).
Proof. exact root_full. Qed.
Print Assumptions C40_second_order.
(** C40.  State of the equations and state of the system determine each other. *)
Theorem C40_equation_state : forall (nd nf : nat) (m : emap QcNum) (x X1 : list Qc),
  length (em_x m : list Qc) = 2 * nd + nf -> em_expand nd nf m x = Ret X1 -> em_eqn nd nf X1 = Ret x.
Proof. exact eqn_expand. Qed.
Print Assumptions C40_equation_state.
Theorem C40_system_state : forall (nd nf : nat) (m : emap QcNum) (X1 : list Qc),
  length (em_x m : list Qc) = 2 * nd + nf -> length X1 = 2 * nd + nf ->
  (forall i, i < nd -> cmp_ X1 i = (cmp_ (em_x m) i + em_h m * ((1 - em_alpha m) * cmp_ (em_x m) (nd + i)%nat + em_alpha m * cmp_ X1 (nd + i)%nat))%Qc) ->
  exists x : list Qc, em_eqn nd nf X1 = Ret x /\ length x = nd + nf /\ em_expand nd nf m x = Ret X1.
Proof. exact expand_eqn. Qed.
Print Assumptions C40_system_state.
(** C40.  With alpha = 0 the only zero is the explicit Euler step. *)
Theorem C40_explicit : forall (nd nf : nat) (f : Qc -> list Qc -> Outcome (list Qc)) (m : emap QcNum) (F0 : list Qc),
  second_order nd nf f -> length (em_x m : list Qc) = 2 * nd + nf -> em_valid m = false -> em_alpha m = 0%Qc -> f (em_t m) (em_x m) = Ret F0 ->
  exists (x X1 : list Qc), length x = nd + nf /\ em_expand nd nf m x = Ret X1 /\ (forall j, j < 2 * nd + nf -> cmp_ X1 j = (cmp_ (em_x m) j + em_h m * cmp_ F0 j)%Qc) /\
    (exists d m', em_map nd nf f x m = Ret (d, m') /\ all_zero d) /\
    (forall x' d m', length x' = nd + nf -> em_map nd nf f x' m = Ret (d, m') -> all_zero d -> x' = x).
Proof. exact explicit. Qed.
Print Assumptions C40_explicit.
(** C40.  Unconditional stability for alpha >= 1/2; the trapezoidal rule keeps the energy of systems that keep it. *)
Theorem C40_stable : forall (nd nf : nat) (A : nat -> nat -> Qc) (f : Qc -> list Qc -> Outcome (list Qc)) (h al t0 t1 : Qc) (X0 X1 F0 F1 : list Qc),
  second_order nd nf f -> linear_rhs (2 * nd + nf) A (fun _ _ => 0%Qc) f -> length X0 = 2 * nd + nf -> f t0 X0 = Ret F0 -> f t1 X1 = Ret F1 ->
  alpha_update nd nf h al X0 F0 X1 F1 -> dissipative (2 * nd + nf) A -> (0 <= h)%Qc -> (1 <= al + al)%Qc -> (energy (2 * nd + nf) X1 <= energy (2 * nd + nf) X0)%Qc.
Proof. exact stable. Qed.
Print Assumptions C40_stable.
Theorem C40_conserved : forall (nd nf : nat) (A : nat -> nat -> Qc) (f : Qc -> list Qc -> Outcome (list Qc)) (h al t0 t1 : Qc) (X0 X1 F0 F1 : list Qc),
  second_order nd nf f -> linear_rhs (2 * nd + nf) A (fun _ _ => 0%Qc) f -> length X0 = 2 * nd + nf -> f t0 X0 = Ret F0 -> f t1 X1 = Ret F1 ->
  alpha_update nd nf h al X0 F0 X1 F1 -> conservative (2 * nd + nf) A -> (al + al = 1)%Qc -> energy (2 * nd + nf) X1 = energy (2 * nd + nf) X0.
Proof. exact conserved. Qed.
Print Assumptions C40_conserved.

(** C41.  A step that returns installs what event processing made of the new state; otherwise time and state stay as they were.  For all components. *)
Theorem C41_all_or_nothing : forall (N : Num) (W P S : Type) (ev : events N W) (nw : newton N S) (c : icfg N W P) (s s' : ist N W P S) (r : ires N),
  i_step ev nw c s = (s', r) ->
  match r with
  | IDone a => exists w3 X2 w4 er, ev_end ev (em_x (i_map s)) X2 (nadd N (em_t (i_map s)) (ic_h c)) w3 = Ret (w4, er) /\
      em_t (i_map s') = ev_t er /\ em_x (i_map s') = ev_x er /\ a = mkPost (ic_h c) true false (ev_trunc er) (n0 N) (ev_izf er) (ev_type er)
  | _ => em_t (i_map s') = em_t (i_map s) /\ em_x (i_map s') = em_x (i_map s)
  end.
Proof. exact @all_or_nothing. Qed.
Print Assumptions C41_all_or_nothing.
(** C41.  A failure is reported exactly with the status Newton's method ended with, never with Converged. *)
Theorem C41_failure : forall (N : Num) (W P S : Type) (ev : events N W) (nw : newton N S) (c : icfg N W P) (s s' : ist N W P S) (stt : nstatus),
  i_step ev nw c s = (s', IFailed stt) -> stt <> NConverged /\ exists g n2 n3, nw_run nw g n2 = Ret (n3, stt).
Proof. exact @verdict. Qed.
Print Assumptions C41_failure.
(** C41.  A step that returns satisfies the equations of the alpha method: positions exactly, the rest within Newton's absolute tolerance;
    with any descent direction, line search, predictor, event controller and reordering by permutations. *)
Theorem C41_residual : forall (W P D : Type) (ev : events QcNum W) (dd : vmapping QcNum -> ddir QcNum D) (lit : ls_lit QcNum) (mt limit : nat) (c : icfg QcNum W P),
  ls_order lit -> (forall w, good_rhs (N:=QcNum) (n_vars c) (ic_rhs c w)) ->
  (forall o, ic_ord c = Some o -> Permutation (fst o) (seq 0 (ic_nd c + ic_nf c)) /\ Permutation (snd o) (seq 0 (ic_nd c + ic_nf c))) ->
  forall (s s' : ist QcNum W P (perf QcNum (S:=D))) (a : postarg QcNum),
  length (em_x (i_map s) : list Qc) = n_vars c -> i_step ev (plain_newton dd lit mt limit) c s = (s', IDone a) ->
  let X0 := em_x (i_map s) in let t := em_t (i_map s) in let h := ic_h c in let al := em_alpha (i_map s) in
  exists w (X1 F0 F1 : list Qc) w4 er,
    ic_rhs c w t X0 = Ret F0 /\ ic_rhs c w (t + h)%Qc X1 = Ret F1 /\ length X1 = n_vars c /\
    (forall i, i < ic_nd c -> cmp_ X1 i = (cmp_ X0 i + h * ((1 - al) * cmp_ X0 (ic_nd c + i)%nat + al * cmp_ X1 (ic_nd c + i)%nat))%Qc) /\
    (forall i, i < ic_nd c + ic_nf c ->
       (Qcabs (cmp_ X1 (ic_nd c + i)%nat - cmp_ X0 (ic_nd c + i)%nat - h * ((1 - al) * cmp_ F0 (ic_nd c + i)%nat + al * cmp_ F1 (ic_nd c + i)%nat)) <= e_absTol (p_est (i_nw s)))%Qc) /\
    ev_end ev X0 X1 (t + h)%Qc w = Ret (w4, er) /\ em_t (i_map s') = ev_t er /\ em_x (i_map s') = ev_x er.
Proof. exact @residual. Qed.
Print Assumptions C41_residual.
(** C41.  Linear systems, Newton's method with finite difference Jacobians and LU: after any number of steps, all of which return, the next
    one returns with the exact update. *)
Theorem C41_linear_run : forall (W P : Type) (c : icfg QcNum W P) (A : nat -> nat -> Qc) (g : W -> Qc -> nat -> Qc) (dx : Qc) (lit : ls_lit QcNum) (mt limit : nat),
  (forall w, linear_rhs (n_vars c) A (g w) (ic_rhs c w)) -> (forall t x w, ic_before c t x w = Ret w) -> ic_ord c = None -> ic_pred c = None ->
  dx <> 0%Qc -> (l_eta lit <= 1)%Qc -> 0 < mt -> 2 <= limit ->
  forall (count : nat) (s : ist QcNum W P (perf QcNum (S:=LUModel.lu))), fresh_start c s -> solvable_pattern (ic_nd c + ic_nf c) (step_matrix (ic_nd c) (ic_h c) (em_alpha (i_map s)) A) ->
  let nw := plain_newton (simple_dd dx None) lit mt limit in
  exists s1 s2 a F0 F1, i_steps no_events nw c count s = Some s1 /\ em_t (i_map s1) = (em_t (i_map s) + qn count * ic_h c)%Qc /\ i_w s1 = i_w s /\
    i_step no_events nw c s1 = (s2, IDone a) /\ em_t (i_map s2) = (em_t (i_map s1) + ic_h c)%Qc /\ i_w s2 = i_w s /\
    ic_rhs c (i_w s) (em_t (i_map s1)) (em_x (i_map s1)) = Ret F0 /\ ic_rhs c (i_w s) (em_t (i_map s2)) (em_x (i_map s2)) = Ret F1 /\
    alpha_update (ic_nd c) (ic_nf c) (ic_h c) (em_alpha (i_map s)) (em_x (i_map s1)) F0 (em_x (i_map s2)) F1.
Proof. exact @linear_run. Qed.
Print Assumptions C41_linear_run.
(** C41.  Stability of whole runs *)
Theorem C41_linear_stable : forall (W P : Type) (c : icfg QcNum W P) (A : nat -> nat -> Qc) (g : W -> Qc -> nat -> Qc) (dx : Qc) (lit : ls_lit QcNum) (mt limit : nat),
  (forall w, linear_rhs (n_vars c) A (g w) (ic_rhs c w)) -> (forall t x w, ic_before c t x w = Ret w) -> ic_ord c = None -> ic_pred c = None ->
  dx <> 0%Qc -> (l_eta lit <= 1)%Qc -> 0 < mt -> 2 <= limit -> forall count : nat,
  (forall w, second_order (ic_nd c) (ic_nf c) (ic_rhs c w)) -> (forall w t j, g w t j = 0%Qc) -> dissipative (n_vars c) A -> (0 <= ic_h c)%Qc ->
  forall s : ist QcNum W P (perf QcNum (S:=LUModel.lu)), fresh_start c s -> solvable_pattern (ic_nd c + ic_nf c) (step_matrix (ic_nd c) (ic_h c) (em_alpha (i_map s)) A) ->
  (1 <= em_alpha (i_map s) + em_alpha (i_map s))%Qc ->
  exists s', i_steps no_events (plain_newton (simple_dd dx None) lit mt limit) c count s = Some s' /\ (energy (n_vars c) (em_x (i_map s')) <= energy (n_vars c) (em_x (i_map s)))%Qc.
Proof. exact @linear_run_stable. Qed.
Print Assumptions C41_linear_stable.
(** C41.  Nothing undefined happens if the components do nothing undefined. *)
Theorem C41_defined : forall (N : Num) (W P S : Type) (ev : events N W) (nw : newton N S) (c : icfg N W P) (s s' : ist N W P S) (r : ires N),
  i_safe ev nw c -> length (em_x (i_map s)) = n_vars c -> i_step ev nw c s = (s', r) -> r <> IUb /\ length (em_x (i_map s')) = n_vars c.
Proof. exact @step_defined. Qed.
Print Assumptions C41_defined.
(** C41.  Of the initial guesses given to the nonlinear solver after setInitialState only the first comes with a hard reset; after a soft setInitialState
    not even that one, unless one was still due. *)
Theorem C41_hard_once : forall (N : Num) (W P S : Type) (ev : events N W) (nw : newton N S) (c : icfg N W P) (count : nat) t x (soft : bool) (s s' : ist N W P (S * list bool)),
  i_steps ev (spy nw) c (Datatypes.S count) (i_set t x soft s) = Some s' ->
  snd (i_nw s') = snd (i_nw s) ++ (if soft then i_hard s else true) :: repeat false count.
Proof. exact @hard_once. Qed.
Print Assumptions C41_hard_once.
