(** StepModel.v - step size control and adaptive stepping.
    Models /repo/include/ode_num_int/ode/OdeStepSizeSimpleController.h, OdeSolverExplicitEmbeddedRK.h and ErrorInfNormCalculator.h. *)
From Coq Require Import List Arith Bool ZArith.
From Verif Require Import Base VecModel VOps RkModel.
Import ListNotations.
Local Open Scope nat_scope.

Section Step.
Context (N : Num).
Notation T := (nT N).
Notation vec := (list T).

(** OdeStepSizeSimpleController.h 83-89 *)
Record scset : Type := mkSc { sc_tol : T; sc_ins : T; sc_incMin : T; sc_incMax : T; sc_decMax : T; sc_maxThr : T }.
(** controlStepSize 32-60: (newStepSize, acceptStep, changeStepSize).  pw is std::pow, eps is GEOM_EPS (util/m_tolerance.h 25). *)
Definition control (pw : T -> T -> T) (eps : T) (s : scset) (h err order : T) : T * bool * bool :=
  let lt := nltb N in
  if neqb N err (n0 N) then (h, true, false) else
  let p := pw (ndiv N (sc_tol s) err) (ndiv N (n1 N) (nadd N order (n1 N))) in
  let pd := nmul N p (sc_ins s) in
  if nleb N (n1 N) p then
    let over := lt (n0 N) (sc_maxThr s) && lt (sc_maxThr s) (nmul N pd h) in
    let pd1 := if over then ndiv N (sc_maxThr s) h else pd in
    if over && lt pd1 (n1 N) then (h, true, false)
    else if lt (n0 N) (sc_incMin s) && lt pd1 (sc_incMin s) then (h, true, false)
    else let pd2 := if lt (n0 N) (sc_incMax s) && lt (sc_incMax s) pd1 then sc_incMax s else pd1 in
         (nmul N h pd2, true, true)
  else if lt (nsub N (n1 N) eps) p then (h, true, false)
  else let pd1 := if lt (n0 N) (sc_decMax s) && lt pd (sc_decMax s) then sc_decMax s else pd in
       (nmul N h pd1, false, true).

(** * OdeSolverExplicitEmbeddedRK.h.  The step size controller (its order argument is the low order, 111) and the error norm are arguments;
    ErrorInfNormCalculator.h uses infNorm, VOps.linf. *)
Record erkcfg : Type := mkErk {
  e_co : coeffs N; e_n : nat; e_hinit : T; e_hmin : T;
  e_mode : nat;                                   (* HighMode 0, LowMode 1 *)
  e_nocheck : bool; e_force : bool; e_hafter : T;
  e_norm : vec -> Outcome T;
  e_sc : T -> T -> T * bool * bool }.
(** How an attempt (one pass of the loop 76-150) ends.  An exception carries no state of its own: the solver object is returned beside it. *)
Inductive attempt : Type :=
| AUb | AThrow                        (* a callback threw *)
| ATooSmall                           (* 131-132 *)
| ARejected (a : postarg N) | AAccepted (a : postarg N).

Section Solver.
Context {W : Type} (ev : events N W) (f : W -> T -> vec -> Outcome vec) (c : erkcfg).
(** setInitialState 67-72, cleanupStep 218-223 *)
Definition erk_set (t : T) (x : vec) (s : rkst N W) : rkst N W := mkRk t x (rk_h s) out_empty (ev_reset ev (rk_w s)).
(** initStep 200-216 *)
Definition erk_init (s : rkst N W) : rkst N W :=
  if out_is_empty (rk_out s)
  then mkRk (rk_t s) (rk_x s) (Some (e_hinit c)) (out_new (length (co_c (e_co c)) + 1) (e_n c) 2) (rk_w s) else s.
(** 99-104 *)
Definition erk_error (o : output N) : Outcome T :=
  if negb (e_nocheck c) || e_force c then
    hi <- rd (o_x2 o) 0 ;; lo <- rd (o_x2 o) 1 ;; b <- lsub hi lo ;; e_norm c b
  else Ret (n0 N).
(** a call that may throw *)
Definition fail {A} (s : rkst N W) (o : Outcome A) (k : A -> rkst N W * attempt) : rkst N W * attempt :=
  match o with Ret a => k a | Throw => (s, AThrow) | UB => (s, AUb) end.
(** One pass of the loop 76-150.  Simplification: when a callback throws, the contents of the work vectors are left as they were before the pass
    (they are overwritten before they are read, see C29). *)
Definition erk_attempt (s : rkst N W) : rkst N W * attempt :=
  let s1 := erk_init s in
  match rk_h s1 with
  | None => (s1, AUb)
  | Some h =>
    fail s1 (ev_start ev (rk_x s1) (rk_t s1) (rk_w s1)) (fun w1 =>
    let s2 := mkRk (rk_t s1) (rk_x s1) (Some h) (rk_out s1) w1 in
    fail s2 (rk_compute (rk_out s1) (e_co c) (f w1) (rk_x s1) (rk_t s1) h) (fun r =>
    let o := fst r in
    fail s2 (rd (o_x2 o) (e_mode c)) (fun next =>
    fail s2 (erk_error o) (fun err =>
    let '(h', accept, change) := if e_nocheck c then (h, true, false) else e_sc c h err in
    let hnew := if change then h' else h in
    if accept then
      fail s2 (ev_end ev (rk_x s1) next (nadd N (rk_t s1) h) w1) (fun e =>
      let (w2, er) := e in
      fail s2 (wr (o_x2 o) (e_mode c) (rk_x s1)) (fun x2s =>
      let o' := mkOut (o_k o) x2s (o_buf o) in
      if change && nleb N hnew (e_hmin c) then (mkRk (ev_t er) (ev_x er) (Some hnew) o' w2, ATooSmall)
      else
        let hn := if ev_trunc er && nltb N (n0 N) (e_hafter c) && nltb N (e_hafter c) hnew then e_hafter c else hnew in
        (mkRk (ev_t er) (ev_x er) (Some hn) o' w2, AAccepted (mkPost h true change (ev_trunc er) err (ev_izf er) (ev_type er)))))
    else
      let s3 := mkRk (rk_t s1) (rk_x s1) (Some hnew) o w1 in
      if change && nleb N hnew (e_hmin c) then (s3, ATooSmall)
      else (s3, ARejected (mkPost h false change false err None 0%Z))))))
  end.
(** doStep 74-151: the loop, for at most fuel passes; the posts are what the post-observers were given.  None: still running. *)
Fixpoint erk_step (fuel : nat) (s : rkst N W) : rkst N W * list (postarg N) * option attempt :=
  match fuel with
  | O => (s, [], None)
  | S k => match erk_attempt s with
           | (s', ARejected a) => let '(s2, l, r) := erk_step k s' in (s2, a :: l, r)
           | (s', AAccepted a) => (s', [a], Some (AAccepted a))
           | (s', r) => (s', [], Some r)
           end
  end.
End Solver.
End Step.
Arguments mkSc {N} _ _ _ _ _ _.
Arguments sc_tol {N} _.
Arguments sc_ins {N} _.
Arguments sc_incMin {N} _.
Arguments sc_incMax {N} _.
Arguments sc_decMax {N} _.
Arguments sc_maxThr {N} _.
Arguments control {N} pw eps s h err order.
Arguments mkErk {N} _ _ _ _ _ _ _ _ _ _.
Arguments e_co {N} _.
Arguments e_n {N} _.
Arguments e_hinit {N} _.
Arguments e_hmin {N} _.
Arguments e_mode {N} _.
Arguments e_nocheck {N} _.
Arguments e_force {N} _.
Arguments e_hafter {N} _.
Arguments e_norm {N} _ _.
Arguments e_sc {N} _ _ _.
Arguments AUb {N}.
Arguments AThrow {N}.
Arguments ATooSmall {N}.
Arguments ARejected {N} a.
Arguments AAccepted {N} a.
Arguments erk_set {N W} ev t x s.
Arguments erk_init {N W} c s.
Arguments erk_error {N} c o.
Arguments fail {N W A} s o k.
Arguments erk_attempt {N W} ev f c s.
Arguments erk_step {N W} ev f c fuel s.
