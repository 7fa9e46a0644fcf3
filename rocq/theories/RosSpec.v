(** RosSpec.v - vocabulary for the statements about the Rosenbrock solvers. *)
From Coq Require Import List Arith Bool ZArith QArith Qcanon.
From Verif Require Import Base SMap SpModel SpSpec LUSpec LUModel RkModel RkSpec StepModel RosModel.
Import ListNotations.
Local Open Scope nat_scope.

Definition delta (i j : nat) : Qc := if i =? j then 1%Qc else 0%Qc.
(** The Jacobian of the whole system  q' = v, (v, y)' = F(q, v, y)  with n2 variables q: rows below n2 are those of q' = v, the others consist
    of J2, the derivatives with respect to q, and J1, those with respect to (v, y). *)
Definition companion (n2 : nat) (J1 J2 : nat -> nat -> Qc) (i k : nat) : Qc :=
  if i <? n2 then delta (n2 + i) k else if k <? n2 then J2 (i - n2) k else J1 (i - n2) (k - n2).
Definition J1_ (r : ros) (i j : nat) : Qc := get (obj (ro_mats r) 0) (i, j).
Definition J2_ (r : ros) (i j : nat) : Qc := get (obj (ro_mats r) 1) (i, j).
Definition jac (r : ros) : nat -> nat -> Qc := companion (ro_n2 r) (J1_ r) (J2_ r).
(** The matrix of the reduced system for (v, y). *)
Definition wmat (hd : Qc) (J1 J2 : nat -> nat -> Qc) (i j : nat) : Qc := (delta i j - hd * J1 i j - hd * hd * J2 i j)%Qc.
(** Positions on the diagonal and those where J1 or J2 is not zero. *)
Definition w_stencil (m : nat) (J1 J2 : nat -> nat -> Qc) : list ((nat * nat) * Qc) :=
  flat_map (fun i => flat_map (fun j => if (i =? j) || negb (Qceqb (J1 i j) 0) || negb (Qceqb (J2 i j) 0) then [((i, j), 0%Qc)] else []) (seq 0 m)) (seq 0 m).
(** The reduced system can be decomposed without pivoting, and the profile decomposition keeps its fill-in (C07). *)
Definition solvable (r : ros) (hd : Qc) : Prop :=
  leading_nonsingular (ro_m r) (wmat hd (J1_ r) (J2_ r)) /\
  fill_covered (w_stencil (ro_m r) (J1_ r) (J2_ r)) (wmat hd (J1_ r) (J2_ r)) (ro_m r).
Definition matvec (n : nat) (A : nat -> nat -> Qc) (x : list Qc) (i : nat) : Qc := qsum n (fun k => A i k * cmp_ x k)%Qc.

(** The forward difference with step 1e-6 of component j of the right-hand side in variable k. *)
Definition value (o : Outcome (list Qc)) : list Qc := match o with Ret v => v | _ => [] end.
Definition difference (f : Qc -> list Qc -> Outcome (list Qc)) (t : Qc) (x0 f0 : list Qc) (j k : nat) : Qc :=
  ((cmp_ (value (f t (upd x0 k (cmp_ x0 k + jdx)%Qc))) j - cmp_ f0 j) / jdx)%Qc.

(** Histories of calls of the methods of OdeSolverRosenbrock_W_base. *)
Inductive rcall : Type :=
| RInit (hard : bool) (n2 n1 : nat) (f : Qc -> list Qc -> Outcome (list Qc)) (t : Qc) (x0 f0 : list Qc) (hd : Qc)
| RSolve (x : list Qc) (hd : Qc).
Definition ros_do (r : ros) (c : rcall) : ros :=
  match c with
  | RInit hard n2 n1 f t x0 f0 hd => fst (ros_init hard n2 n1 f t x0 f0 hd r)
  | RSolve x hd => match ros_linSolve x hd r with Ret (r', _) => r' | _ => r end
  end.
Definition ros_hist (l : list rcall) : ros := fold_left ros_do l ros_new.
Definition call_ok (c : rcall) : Prop :=
  match c with
  | RInit true n2 n1 f t x0 f0 _ => good_rhs (N:=QcNum) (2 * n2 + n1) f /\ length x0 = 2 * n2 + n1 /\ length f0 = 2 * n2 + n1
  | _ => True
  end.
(** The history starts with a hard initialisation and all hard initialisations are proper. *)
Definition proper (l : list rcall) : Prop :=
  Forall call_ok l /\ exists n2 n1 f t x0 f0 hd l', l = RInit true n2 n1 f t x0 f0 hd :: l'.
(** The value of h*d the last initStep was called with, and the last hard initialisation. *)
Definition requested (l : list rcall) : option Qc := fold_left (fun o c => match c with RInit _ _ _ _ _ _ _ hd => Some hd | _ => o end) l None.
Definition last_hard (l : list rcall) : option rcall := fold_left (fun o c => match c with RInit true _ _ _ _ _ _ _ => Some c | _ => o end) l None.
(** The same solver with the cache of decompositions emptied. *)
Definition uncached (r : ros) : ros := mkRos (ro_n2 r) (ro_n1 r) (ro_mats r) [] None 0%Qc.
(** What the caller of linSolve gets: the overwritten vector. *)
Definition solution (o : Outcome (ros * list Qc)) : Outcome (list Qc) := match o with Ret (_, x) => Ret x | Throw => Throw | UB => UB end.
(** The system (I - hd*J) x = b. *)
Definition shifted (hd : Qc) (J : nat -> nat -> Qc) (i k : nat) : Qc := (delta i k - hd * J i k)%Qc.

(** * The methods.  (I - hw*J) k1 = f0, x1 = x + h*k1 *)
Definition w1_formula (n : nat) (J : nat -> nat -> Qc) (hw : Qc) (x f0 : list Qc) (h : Qc) (k1 next : list Qc) : Prop :=
  length k1 = n /\ length next = n /\ solves n (shifted hw J) (vfun k1) (vfun f0) /\
  forall j, j < n -> cmp_ next j = (cmp_ x j + h * cmp_ k1 j)%Qc.
(** The stages of SW2(4):  (I - hw*J) k1 = f0,  (I - hw*J) k2 = f(t + 2h/3, x + 2h/3*k1) - 4/3*hd*J*k1,  x1 = x + h*(k1/4 + 3*k2/4).
    The method has hw = hd = h*d. *)
Definition sw_formula (n : nat) (J : nat -> nat -> Qc) (hw hd : Qc) (f : Qc -> list Qc -> Outcome (list Qc)) (t : Qc) (x f0 : list Qc) (h : Qc) (k1 k2 next : list Qc) : Prop :=
  length k1 = n /\ length k2 = n /\ length next = n /\ solves n (shifted hw J) (vfun k1) (vfun f0) /\
  (exists y f2, length y = n /\ (forall j, j < n -> cmp_ y j = (cmp_ x j + qc 2 3 * h * cmp_ k1 j)%Qc) /\ f (t + qc 2 3 * h)%Qc y = Ret f2 /\
     solves n (shifted hw J) (vfun k2) (fun j => (cmp_ f2 j - qc 4 3 * hd * matvec n J k1 j)%Qc)) /\
  forall j, j < n -> cmp_ next j = (cmp_ x j + h * (qc 1 4 * cmp_ k1 j + qc 3 4 * cmp_ k2 j))%Qc.
(** The vector whose norm is the error estimate: (I - hw*J) k3 = f1,  (I - hw*J) k4 = f(t + 5h/3, x1 + 2h/3*k3) + hd*J*(2/3*k1 + 6*k2),
    h/8*(5*(k3 - k2) + k1 - k4). *)
Definition sw_estimate (n : nat) (J : nat -> nat -> Qc) (hw hd : Qc) (f : Qc -> list Qc -> Outcome (list Qc)) (t : Qc) (h : Qc) (k1 k2 next f1 est : list Qc) : Prop :=
  length est = n /\ exists k3 k4 y f4, length k3 = n /\ length k4 = n /\ length y = n /\ solves n (shifted hw J) (vfun k3) (vfun f1) /\
  (forall j, j < n -> cmp_ y j = (cmp_ next j + qc 2 3 * h * cmp_ k3 j)%Qc) /\ f (t + qc 5 3 * h)%Qc y = Ret f4 /\
  solves n (shifted hw J) (vfun k4) (fun j => (cmp_ f4 j + hd * (qc 2 3 * matvec n J k1 j + qc 6 1 * matvec n J k2 j))%Qc) /\
  forall j, j < n -> cmp_ est j = (h * qc 1 8 * (qc 5 1 * (cmp_ k3 j - cmp_ k2 j) + cmp_ k1 j - cmp_ k4 j))%Qc.

(** * Runs of the solvers.  The right-hand side does not depend on the world (no phase state), returns n values for n values, and the
    observers, the event controller and the norm do not throw; an event controller that does not truncate the step keeps its end. *)
Definition r_safe {W} (ev : events QcNum W) (c : rcfg W) (f : Qc -> list Qc -> Outcome (list Qc)) : Prop :=
  0 < rc_n2 c + rc_n1 c /\ good_rhs (N:=QcNum) (rc_n c) f /\ (forall w, rc_rhs c w = f) /\
  (forall t x f0 w, exists w', rc_before c t x f0 w = Ret w') /\ (forall x t w, exists w', ev_start ev x t w = Ret w') /\
  (forall x1 x2 t2 w, length x1 = rc_n c -> length x2 = rc_n c -> exists w' e, ev_end ev x1 x2 t2 w = Ret (w', e) /\ length (ev_x e) = rc_n c /\ (ev_trunc e = false -> ev_x e = x2 /\ ev_t e = t2)) /\
  (forall v, exists e, rc_norm c v = Ret e).
(** States of a solver object after any calls with any right-hand sides, norms, step size controllers and event controllers, including calls that end in an
    exception at any point, as long as nothing undefined has happened. *)
Inductive used {W} : rst W -> Prop :=
| used_new w : used (q_new w)
| used_size s h : used s -> used (q_setStep h s)
| used_w1_set s t x soft : used s -> used (w1_set t x soft s)
| used_sw_set s c t x soft s' o : used s -> sw_set c t x soft s = (s', o) -> o <> UB -> used s'
| used_w1_step s ev c s' o : used s -> w1_step ev c s = (s', o) -> o <> AUb -> used s'
| used_sw_step s ev c fuel s' l o : used s -> sw_step ev c fuel s = (s', l, o) -> o <> Some AUb -> used s'.
(** States a run passes through: setInitialState of a new solver or hard of a used one, then setInitialState, setInitialStepSize and accepted steps, without an exception. *)
Inductive sw_reach {W} (ev : events QcNum W) (c : rcfg W) : rst W -> Prop :=
| sw_start w h t x : length x = rc_n c -> sw_reach ev c (fst (sw_set c t x false (q_setStep h (q_new w))))
| sw_restart s t x : used s -> length x = rc_n c -> sw_reach ev c (fst (sw_set c t x false s))
| sw_again s s' t x soft : sw_reach ev c s -> length x = rc_n c -> sw_set c t x soft s = (s', Ret tt) -> sw_reach ev c s'
| sw_size s h : sw_reach ev c s -> sw_reach ev c (q_setStep h s)
| sw_did s fuel s' l a : sw_reach ev c s -> sw_step ev c fuel s = (s', l, Some (AAccepted a)) -> sw_reach ev c s'.
Inductive w1_reach {W} (ev : events QcNum W) (c : rcfg W) : rst W -> Prop :=
| w1_start w h t x : length x = rc_n c -> w1_reach ev c (w1_set t x false (q_setStep h (q_new w)))
| w1_restart s t x : used s -> length x = rc_n c -> w1_reach ev c (w1_set t x false s)
| w1_again s t x soft : w1_reach ev c s -> length x = rc_n c -> w1_reach ev c (w1_set t x soft s)
| w1_size s h : w1_reach ev c s -> w1_reach ev c (q_setStep h s)
| w1_did s s' a : w1_reach ev c s -> w1_step ev c s = (s', AAccepted a) -> w1_reach ev c s'.
(** The Jacobian J a step from s works with: computed from differences at the start of the step if there is none yet (after a hard
    initialisation), with zeros in the columns of the last n2 variables (C43), else the one in use before. *)
Definition step_jac {W} (c : rcfg W) (f : Qc -> list Qc -> Outcome (list Qc)) (s : rst W) (f0 : list Qc) (J : nat -> nat -> Qc) : Prop :=
  (q_k s = 0 -> forall i k, i < rc_n c -> k < rc_n c ->
     J i k = if i <? rc_n2 c then delta (rc_n2 c + i) k else if k <? rc_n2 c + rc_n1 c then difference f (q_t s) (q_x s) f0 i k else 0%Qc) /\
  (q_k s <> 0 -> forall i k, J i k = jac (q_ros s) i k).
