(** ModModel.v - the test models: /repo/include/ode_num_int/ode/test_models/BouncingBall.h, Oscillator.h, CoupledNonlinearOscillators.h,
    StiffOde1D.h.  (SlidingPoint.h is in SlideModel.v.)
    Simplifications: the observers called before and after the right-hand side are left out; the parameter tables are in ParModel.v. *)
From Coq Require Import List Arith Bool ZArith.
From Verif Require Import Base VecModel VOps RkModel EvModel.
Import ListNotations.
Local Open Scope nat_scope.

Section Mod.
Context (N : Num).
Notation T := (nT N).
Notation vec := (list T).

(** BouncingBall.h 127-129; the member m_sticking (131) is the phase state, false in a new object (31) *)
Record ball : Type := mkBall { b_g : T; b_r : T; b_s : T }.
(** rhs 50-61; dst.resize(2) and both elements assigned *)
Definition ball_rhs (b : ball) (sticking : bool) (t : T) (x : vec) : Outcome vec :=
  if sticking then Ret [n0 N; n0 N] else v <- rdat x 1 ;; Ret [v; nopp N (b_g b)].
(** zeroFunctions 63-67 *)
Definition ball_zero (sticking : bool) (t : T) (x : vec) : Outcome vec := y <- rdat x 0 ;; Ret [y].
(** the lambda stick 71-74 *)
Definition ball_stick (x : vec) : Outcome (bool * vec) := x1 <- wrat x 1 (n0 N) ;; x0 <- wrat x1 0 (n0 N) ;; Ret (true, x0).
(** switchPhaseState 69-89 *)
Definition ball_switch (b : ball) (sticking : bool) (transitions : list Z) (t : T) (x : vec) : Outcome (bool * vec) :=
  v <- rdat x 1 ;;
  if nltb N (nabs N v) (b_s b) then ball_stick x
  else if nltb N v (n0 N) then x' <- wrat x 1 (nmul N v (nopp N (b_r b))) ;; Ret (sticking, x')
  else ball_stick x.
(** zeroFuncCount 42-44, zeroFuncFlags 46-48 (PlusMinus = 1, OdeRhs.h 35); truncateStep is inherited, OdeRhs.h 77-79 *)
Definition ball_model (b : ball) : evrhs N bool :=
  mkEvRhs 1 [1%Z] ball_zero (ball_switch b) (fun _ t x => Ret (false, t, x)).
(** A fixed step Runge-Kutta solver with the linear event controller, working on the ball *)
Definition ball_steps (b : ball) (co : coeffs N) (h : T) (count : nat) (s : rkst N (ctl N * bool)) : Outcome (rkst N (ctl N * bool) * list (postarg N)) :=
  rk_steps (linear_events (ball_model b)) (fun w => ball_rhs b (snd w)) co 2 h count s.
Definition ball_start (b : ball) (t0 : T) (x0 : vec) (s : rkst N (ctl N * bool)) : rkst N (ctl N * bool) :=
  rk_set (linear_events (ball_model b)) t0 x0 s.

(** Oscillator.h rhs 36-43 *)
Definition osc_rhs (c f : T) (t : T) (x : vec) : Outcome vec :=
  v <- rdat x 1 ;; y <- rdat x 0 ;; Ret [v; nsub N f (nmul N c y)].

(** StiffOde1D.h rhs 35-41; the cosine is a parameter *)
Definition stiff_rhs (cosine : T -> T) (a : T) (t : T) (x : vec) : Outcome vec :=
  y <- rdat x 0 ;; Ret [nmul N (nopp N a) (nsub N y (cosine t))].

(** CoupledNonlinearOscillators.h force 97-99 *)
Definition cpl_force (c0 c2 d : T) : T := nmul N d (nadd N c0 (nmul N (nmul N c2 d) d)).
(** rhs 38-55: the loop body 42-53 *)
Definition cpl_body (n : nat) (c0 c2 f0 : T) (x : vec) (i : nat) (dst : vec) : Outcome vec :=
  v <- rdat x (n + i) ;;
  dst1 <- wrat dst i v ;;
  xi <- rdat x i ;;
  dprev <- (if 0 <? i then xp <- rdat x (i - 1) ;; Ret (nsub N xi xp) else Ret xi) ;;
  let f := nopp N (cpl_force c0 c2 dprev) in
  f' <- (if i + 1 <? n then xn <- rdat x (i + 1) ;; Ret (nadd N f (cpl_force c0 c2 (nsub N xn xi)))
         else if i + 1 =? n then Ret (nadd N f f0) else Ret f) ;;
  wrat dst1 (n + i) f'.
Definition cpl_rhs (n : nat) (c0 c2 f : T) (t : T) (x : vec) : Outcome vec :=
  ofor 0 n (cpl_body n c0 c2 f x) (repeat (n0 N) (2 * n)).
End Mod.
Arguments mkBall {N} _ _ _.
Arguments b_g {N} _.
Arguments b_r {N} _.
Arguments b_s {N} _.
Arguments ball_rhs {N} b sticking t x.
Arguments ball_zero {N} sticking t x.
Arguments ball_stick {N} x.
Arguments ball_switch {N} b sticking transitions t x.
Arguments ball_model {N} b.
Arguments ball_steps {N} b co h count s.
Arguments ball_start {N} b t0 x0 s.
Arguments osc_rhs {N} c f t x.
Arguments stiff_rhs {N} cosine a t x.
Arguments cpl_force {N} c0 c2 d.
Arguments cpl_body {N} n c0 c2 f0 x i dst.
Arguments cpl_rhs {N} n c0 c2 f t x.
