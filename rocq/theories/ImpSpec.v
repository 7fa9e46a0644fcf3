(** ImpSpec.v - vocabulary for the implicit alpha method. *)
From Coq Require Import List Arith Bool ZArith QArith Qcanon Permutation.
From Verif Require Import Base VecModel VOps MapModel NewtModel RkModel RkSpec ImpModel.
Import ListNotations.
Local Open Scope nat_scope.

(** State vectors: nd positions, nd velocities, nf first order variables.  X1 is the update of X0 by the alpha method with the slopes F0 at
    the start and F1 at the end: positions from the velocities, velocities and first order variables from the slopes. *)
Definition alpha_update (nd nf : nat) (h al : Qc) (X0 F0 X1 F1 : list Qc) : Prop :=
  length X1 = 2 * nd + nf /\
  (forall i, i < nd -> cmp_ X1 i = (cmp_ X0 i + h * ((1 - al) * cmp_ X0 (nd + i)%nat + al * cmp_ X1 (nd + i)%nat))%Qc) /\
  (forall i, i < nd + nf -> cmp_ X1 (nd + i)%nat = (cmp_ X0 (nd + i)%nat + h * ((1 - al) * cmp_ F0 (nd + i)%nat + al * cmp_ F1 (nd + i)%nat))%Qc).
(** A right-hand side of a system of nd second order and nf first order equations: the derivatives of the positions are the velocities. *)
Definition second_order (nd nf : nat) (f : Qc -> list Qc -> Outcome (list Qc)) : Prop :=
  forall t x, length x = 2 * nd + nf -> exists y, f t x = Ret y /\ length y = 2 * nd + nf /\ forall i, i < nd -> cmp_ y i = cmp_ x (nd + i).
(** A linear system x' = A x + g(t), of n variables; its energy |x|^2 cannot grow, or does not change, along solutions of x' = A x. *)
Definition linear_rhs (n : nat) (A : nat -> nat -> Qc) (g : Qc -> nat -> Qc) (f : Qc -> list Qc -> Outcome (list Qc)) : Prop :=
  forall t x, length x = n -> exists y, f t x = Ret y /\ length y = n /\ forall j, j < n -> cmp_ y j = (qsum n (fun k => A j k * cmp_ x k) + g t j)%Qc.
Definition dissipative (n : nat) (A : nat -> nat -> Qc) : Prop := forall x : nat -> Qc, (qsum n (fun j => x j * qsum n (fun k => A j k * x k)) <= 0)%Qc.
Definition conservative (n : nat) (A : nat -> nat -> Qc) : Prop := forall x : nat -> Qc, qsum n (fun j => x j * qsum n (fun k => A j k * x k)%Qc)%Qc = 0%Qc.
Definition energy (n : nat) (x : list Qc) : Qc := qsum n (fun j => cmp_ x j * cmp_ x j)%Qc.
(** The matrix of the linear equations for the velocities and first order variables that such a step solves. *)
Definition step_matrix (nd : nat) (h al : Qc) (A : nat -> nat -> Qc) (i j : nat) : Qc :=
  ((if i =? j then 1 else 0) - h * al * (A (nd + i)%nat (nd + j)%nat + (if j <? nd then h * al * A (nd + i)%nat j else 0)))%Qc.
Definition all_zero (v : list Qc) : Prop := forall x, In x v -> x = 0%Qc.

Section Calls.
Context {N : Num} (nd nf : nat) (f : nT N -> list (nT N) -> Outcome (list (nT N))).
(** Calls of the step mapping's methods; what a call leaves in the object, whether or not it returns *)
Inductive ecall : Type := CState (t : nT N) (x : list (nT N)) | CStep (h : nT N) | CAlpha (a : nT N) | CMap (x : list (nT N)).
Definition em_do (m : emap N) (c : ecall) : emap N :=
  match c with
  | CState t x => em_setState t x m
  | CStep h => em_setStep h m
  | CAlpha a => em_setAlpha a m
  | CMap x => match em_prepare f m with Ret m1 => m1 | _ => m end
  end.
Definition em_hist (l : list ecall) (m : emap N) : emap N := fold_left em_do l m.
(** the same parameters, nothing cached *)
Definition em_uncached (m : emap N) : emap N := mkEM (em_alpha m) (em_h m) (em_t m) (em_x m) [] false.
(** the result of map *)
Definition em_value (x : list (nT N)) (m : emap N) : Outcome (list (nT N)) := r <- em_map nd nf f x m ;; Ret (fst r).
End Calls.

(** Components that never do anything undefined *)
Section Safe.
Context {N : Num} {W P S : Type} (ev : events N W) (nw : newton N S) (c : icfg N W P).
Notation vec := (list (nT N)).
Definition n_vars : nat := 2 * ic_nd c + ic_nf c.
Definition i_safe : Prop :=
  (forall w t x, length x = n_vars -> ic_rhs c w t x = Throw \/ exists y, ic_rhs c w t x = Ret y /\ length y = n_vars) /\
  (forall t x w, ic_before c t x w <> UB) /\
  (forall pr, ic_pred c = Some pr -> forall h t x k q, length x = n_vars -> pr h t x k q = Throw \/ exists y q', pr h t x k q = Ret (y, q') /\ length y = n_vars) /\
  (forall o, ic_ord c = Some o -> Permutation (fst o) (seq 0 (ic_nd c + ic_nf c)) /\ Permutation (snd o) (seq 0 (ic_nd c + ic_nf c))) /\
  (forall x b s, nw_guess nw x b s <> UB) /\
  (forall g s, inSize g = ic_nd c + ic_nf c -> outSize g = ic_nd c + ic_nf c ->
     (forall x, length x = inSize g -> mapf g x = Throw \/ exists y, mapf g x = Ret y /\ length y = outSize g) ->
     nw_run nw g s = Throw \/ exists s' stt, nw_run nw g s = Ret (s', stt) /\ (stt = NConverged -> length (nw_sol nw s') = ic_nd c + ic_nf c)) /\
  (forall x t w, length x = n_vars -> ev_start ev x t w <> UB) /\
  (forall x1 x2 t w, length x1 = n_vars -> length x2 = n_vars ->
     ev_end ev x1 x2 t w = Throw \/ exists w' er, ev_end ev x1 x2 t w = Ret (w', er) /\ length (ev_x er) = n_vars).
End Safe.
Arguments n_vars {N W P} c.
(** A solver whose state was set by setInitialState, with Newton's tolerances nonnegative and the limit on the relative change switched off *)
Definition fresh_start {W P D : Type} (c : icfg QcNum W P) (s : ist QcNum W P (perf QcNum (S:=D))) : Prop :=
  length (em_x (i_map s) : list Qc) = n_vars c /\ i_hard s = true /\
  (0 <= e_absTol (p_est (i_nw s)))%Qc /\ (0 <= e_relTol (p_est (i_nw s)))%Qc /\ (e_relMax (p_est (i_nw s)) <= 0)%Qc.

(** A nonlinear solver that also writes down, for each initial guess, whether it came with a hard reset. *)
Definition spy {N : Num} {S : Type} (nw : newton N S) : newton N (S * list bool) :=
  mkNewton (fun x hard s => n <- nw_guess nw x hard (fst s) ;; Ret (n, snd s ++ [hard]))
    (fun g s => r <- nw_run nw g (fst s) ;; Ret ((fst r, snd s), snd r))
    (fun s => nw_sol nw (fst s)) (fun s => (nw_reset nw (fst s), snd s)).
