(** PropMore4.v - further theorems for C28, C33, C43, C51 and C82. *)
From Coq Require Import List Arith Bool ZArith QArith Qcanon String.
From Verif Require Import Base VecModel SMap SpModel MapModel JacModel LUSpec LUModel NewtModel NewtSpec RkModel RkSpec StepModel EvModel EvSpec RosModel RosSpec LexModel ParModel InitModel InitSpec CjSpec CjFacts MoreFacts5.
Import ListNotations.
Local Open Scope nat_scope.
(** C28.  Any history of direction computations by one ConstJacobianNewtonDescentDirection: each direction solves J d = -f with the residual f of the call and the
    Jacobian J of the last call that came first or after a hard reset. *)
Theorem C28_const_direction : forall (dx : Qc) (jt : option (trimmer QcNum)) (n : nat) (h : list dcall), const_usable dx jt n None h ->
  exists ds s', const_hist dx jt h lu_empty = Ret (ds, s') /\ const_directions dx jt n None h ds.
Proof. exact const_hist_fresh. Qed.
Print Assumptions C28_const_direction.
(** C28.  With a constant Jacobian, run() gives up at the iteration limit only after starting again from the initial guess with a new Jacobian; with a Jacobian computed in
    every iteration it never starts again. *)
Theorem C28_const_again : forall (dx : Qc) (jt : option (trimmer QcNum)) (g : vmapping QcNum) (lit : ls_lit QcNum) (mt limit : nat) (p p' : perf QcNum) (log : list (event QcNum)),
  nrun (plain_comps (const_dd dx jt g) lit mt g) limit p = Ret (p', log, NLimit) -> exists l1 l2, log = l1 ++ EvGuess (p_x p) :: l2.
Proof. exact const_again. Qed.
Print Assumptions C28_const_again.
Theorem C28_simple_once : forall (dx : Qc) (jt : option (trimmer QcNum)) (g : vmapping QcNum) (lit : ls_lit QcNum) (mt limit : nat) (p p' : perf QcNum) (log : list (event QcNum)) (st : nstatus),
  nrun (plain_comps (simple_dd dx jt g) lit mt g) limit p = Ret (p', log, st) -> guesses log = [].
Proof. exact simple_once. Qed.
Print Assumptions C28_simple_once.
(** C33.  Functions are computed anew after an event if bit 2 of their flags is set (RecomputeAfterSwitch = 4). *)
Theorem C33_recompute_flag : forall fl : Z, recomputed fl = Z.testbit fl 2.
Proof. exact recompute_bit. Qed.
Print Assumptions C33_recompute_flag.
(** C33.  A reset through the interface the solvers use makes the next step evaluate all functions anew. *)
Theorem C33_interface_reset : forall (P : Type) (m : evrhs QcNum P) (nz : nat) (p : P) (x1 : list Qc) (t1 : Qc) (c : ctl QcNum) (z : list Qc),
  0 < nz -> zfCount m = nz -> List.length (zfFlags m) = nz -> zeroFunctions m p t1 x1 = Ret z -> List.length z = nz ->
  exists c', ev_start (linear_events m) x1 t1 (ev_reset (linear_events m) (c, p)) = Ret (c', p) /\ sized m c' nz /\ c_zf1 c' = z /\ c_t1 c' = t1 /\
    (consistent m c' nz <-> forall i, i < nz -> near_side (nth i (zfFlags m) 0%Z) (nth i z 0%Qc)).
Proof. exact linear_reset. Qed.
Print Assumptions C33_interface_reset.
(** C43.  The differences have the step 1e-6. *)
Theorem C43_difference_step : forall (f : Qc -> list Qc -> Outcome (list Qc)) (t : Qc) (x0 f0 : list Qc) (j k : nat),
  difference f t x0 f0 j k = ((cmp_ (value (f t (upd x0 k (cmp_ x0 k + qc 1 1000000)%Qc))) j - cmp_ f0 j) / qc 1 1000000)%Qc.
Proof. exact diff_step. Qed.
Print Assumptions C43_difference_step.
(** C51.  If setParameters of the specified initial state succeeds, all texts it reads numbers from are numbers. *)
Theorem C51_texts_checked : forall (real : Type) (zero : real) (stod : string -> Outcome real) (ps : pset) (s s' : istate), is_set zero stod ps s = (s', Ret tt) ->
  forall v : pvalue, mfind TOstr "time"%string ps = Some v \/ (exists i, i < List.length (is_x s') /\ mfind TOstr (is_name i) ps = Some v) -> IsNumber (c_str (v_text v)) = true.
Proof. exact set_numbers. Qed.
Print Assumptions C51_texts_checked.
(** C82.  After a first step of SW2(4) in which the right-hand side has thrown, a soft setInitialState is still safe. *)
Theorem C82_soft_after_throw : forall (W : Type) (ev : events QcNum W) (c c' : rcfg W) (w : W) (h t t' : Qc) (x x' f0 : list Qc) (fuel : nat),
  rc_rhs c w t x = Throw -> 0 < fuel -> rc_rhs c' w t' x' = Ret f0 -> List.length f0 = rc_n c ->
  snd (sw_set c' t' x' true (fst (fst (sw_step ev c fuel (fst (sw_set c t x false (q_setStep h (q_new w)))))))) = Ret tt.
Proof. exact @soft_after. Qed.
Print Assumptions C82_soft_after_throw.
