(** CjSpec.v - vocabulary for the constant Jacobian descent direction. *)
From Coq Require Import List Arith Bool ZArith QArith Qcanon.
From Verif Require Import Base VecModel SpModel JacModel LUSpec LUModel NewtModel NewtSpec.
Import ListNotations.
Local Open Scope nat_scope.
(** Histories of descent direction computations by ConstJacobianNewtonDescentDirection: (reset(true) before, else reset(false)?, mapping, x0, f0). *)
Fixpoint const_hist (dx : Qc) (jt : option (trimmer QcNum)) (h : list dcall) (s : LUModel.lu) : Outcome (list (list Qc) * LUModel.lu) :=
  match h with
  | [] => Ret ([], s)
  | (hard, g, x0, f0) :: t =>
    let dd := const_dd dx jt g in
    r <- dd_dir dd x0 f0 0 (dd_reset dd hard s) ;;
    q <- const_hist dx jt t (snd r) ;; Ret (fst r :: fst q, snd q)
  end.
(** The call whose Jacobian a call works with: itself if nothing came before or it follows a hard reset, else that of the call before. *)
Definition const_ref (ref : option dcall) (c : dcall) : dcall := match ref, c with Some r, (false, _, _, _) => r | _, _ => c end.
(** Each direction solves J d = -f0 with the Jacobian J of the reference call. *)
Fixpoint const_directions (dx : Qc) (jt : option (trimmer QcNum)) (n : nat) (ref : option dcall) (h : list dcall) (ds : list (list Qc)) : Prop :=
  match h, ds with
  | [], [] => True
  | c :: h', d :: ds' =>
    let '(_, g, x0, _) := const_ref ref c in let '(_, _, _, f0) := c in
    (length d = n /\ exists J, default_provider (N:=QcNum) dx jt g x0 = Ret J /\ solves n (mval (sdat J)) (vfun d) (fun i => - vfun f0 i)%Qc) /\
    const_directions dx jt n (Some (const_ref ref c)) h' ds'
  | _, _ => False
  end.
(** Only the Jacobians of reference calls have to be usable; all residuals have n components. *)
Fixpoint const_usable (dx : Qc) (jt : option (trimmer QcNum)) (n : nat) (ref : option dcall) (h : list dcall) : Prop :=
  match h with
  | [] => True
  | c :: h' => length (snd c) = n /\ (ref = None \/ fst (fst (fst c)) = true -> usable dx jt n c) /\ const_usable dx jt n (Some (const_ref ref c)) h'
  end.
