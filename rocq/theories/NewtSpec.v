(** NewtSpec.v - vocabulary for the statements about the Newton solver. *)
From Coq Require Import List Arith Bool QArith Qcanon.
From Verif Require Import Base SMap SpModel MapModel JacModel JacSpec VOps LUModel NewtModel LUSpec.
Import ListNotations.
Local Open Scope nat_scope.

Section NewtSpec.
Context {N : Num}.
Notation T := (nT N).
Notation vec := (list T).

(** * Line search *)
(** What the line search needs from the comparisons; valid for exact numbers and for numbers with NaN. *)
Definition ls_order (lit : ls_lit N) : Prop :=
  (forall a b c, nltb N a b = true -> nltb N b c = true -> nltb N a c = true) /\
  (forall a, nltb N a a = false) /\
  (forall a, nltb N a (n1 N) = true -> neqb N a (n1 N) = false) /\ neqb N (n1 N) (n1 N) = true /\ nltb N (n1 N) (l_eta lit) = false /\
  (forall a b, nltb N a (l_eta lit) = true -> b = n1 N \/ nltb N b (n1 N) = true -> nltb N b (l_eta lit) = false -> nltb N a b = true).
(** The trial step lengths: a, a/2, a/4, ... *)
Fixpoint halved (lit : ls_lit N) (a : T) (k : nat) : T := match k with O => a | S k' => nmul N (halved lit a k') (l_half lit) end.
(** f is the residual at x0 + a*dir. *)
Definition residual_at (g : vmapping N) (dir x0 : vec) (a : T) (f : vec) : Prop :=
  exists x, ladd x0 (lscale dir a) = Ret x /\ mapf g x = Ret f.
Definition ratio (f f0 : vec) : T := ndiv N (lnorm2 f) (lnorm2 f0).
Definition improves (e : T * T) : Prop := nltb N (snd e) (n1 N) = true.

(** * Histories of calls of the iteration performer, ending normally; the mapping stays the same *)
Inductive pf_call : Type := CGuess (x : vec) (hard : bool) | CReset (hard : bool) | CResidual | CIter (n : nat).
Section Hist.
Context {S : Type} (dd : ddir N S) (lit : ls_lit N) (maxTrunc : nat) (g : vmapping N).
Definition pf_do (c : pf_call) (p : perf N (S:=S)) : Outcome (perf N (S:=S)) :=
  match c with
  | CGuess x hard => Ret (pf_guess dd x hard p)
  | CReset hard => Ret (pf_reset dd hard p)
  | CResidual => r <- pf_residual g p ;; Ret (snd r)
  | CIter n => r <- pf_iteration dd lit maxTrunc g n p ;; Ret (fst r)
  end.
Fixpoint pf_hist (h : list pf_call) (p : perf N (S:=S)) : Outcome (perf N (S:=S)) :=
  match h with [] => Ret p | c :: t => q <- pf_do c p ;; pf_hist t q end.
End Hist.

(** * Logs of NewtonSolver::run *)
Definition iter_numbers (l : list (event N)) : list nat := flat_map (fun e => match e with EvIter n _ => [n] | _ => [] end) l.
Definition obs_numbers (l : list (event N)) : list nat := flat_map (fun e => match e with EvObs n _ => [n] | _ => [] end) l.
Definition successes (l : list (event N)) : list bool := flat_map (fun e => match e with EvReport b => [b] | _ => [] end) l.
Definition guesses (l : list (event N)) : list vec := flat_map (fun e => match e with EvGuess x => [x] | _ => [] end) l.
Definition ends_with (l suf : list (event N)) : Prop := exists pre, l = pre ++ suf.
(** Every iteration is followed by the observers; unless they ask to stop, the regularization is adjusted next. *)
Definition followed (l : list (event N)) : Prop :=
  forall pre n e suf, l = pre ++ EvIter n e :: suf -> exists m stop suf', suf = EvObs m stop :: suf' /\
    (stop = false -> exists again suf'', suf' = EvAdjust again :: suf'').
(** What an event of the log says about the components: the call it stands for takes them from state s to s'. *)
Definition call {S : Type} (c : comps N S) (e : event N) (s s' : S) : Prop :=
  match e with
  | EvIter n st => c_iter c n s = Ret (s', st)
  | EvObs n stop => c_obs c n s = Ret (s', stop)
  | EvAdjust again => c_adjust c s = Ret (s', again)
  | EvReport b => s' = c_report c b s
  | EvGuess x => c_guess c x s = Ret s'
  end.
Fixpoint calls {S : Type} (c : comps N S) (l : list (event N)) (s s' : S) : Prop :=
  match l with [] => s' = s | e :: t => exists m, call c e s m /\ calls c t m s' end.
End NewtSpec.

(** Histories of descent direction computations by SimpleNewtonDescentDirection: (hard reset before?, mapping, x0, f0). *)
Definition dcall : Type := (bool * vmapping QcNum * list Qc * list Qc)%type.
Fixpoint simple_hist (dx : Qc) (jt : option (trimmer QcNum)) (h : list dcall) (s : LUModel.lu) : Outcome (list (list Qc) * LUModel.lu) :=
  match h with
  | [] => Ret ([], s)
  | (hard, g, x0, f0) :: t =>
    r <- simple_dir dx jt g x0 f0 0 (if hard then lu_empty else s) ;;
    q <- simple_hist dx jt t (snd r) ;; Ret (fst r :: fst q, snd q)
  end.
(** The Jacobian computed in a call is usable by the LU solver without pivoting. *)
Definition usable (dx : Qc) (jt : option (trimmer QcNum)) (n : nat) (c : dcall) : Prop :=
  let '(_, g, x0, f0) := c in
  length f0 = n /\ exists J, default_provider (N:=QcNum) dx jt g x0 = Ret J /\ distinct_keys (sdat J) /\ acceptable (sdat J) n /\
    leading_nonsingular n (mval (sdat J)) /\ stencil_covers (sdat J) n.
(** d is the Newton direction for that call: J d = -f0. *)
Definition newton_direction (dx : Qc) (jt : option (trimmer QcNum)) (n : nat) (c : dcall) (d : list Qc) : Prop :=
  let '(_, g, x0, f0) := c in
  length d = n /\ exists J, default_provider (N:=QcNum) dx jt g x0 = Ret J /\ solves n (mval (sdat J)) (vfun d) (fun i => - vfun f0 i)%Qc.
(** Elimination without pivoting works for A, and its zero pattern is one LUFactorizer handles. *)
Definition solvable_pattern (n : nat) (A : nat -> nat -> Qc) : Prop :=
  leading_nonsingular n A /\
  (forall i, i < n -> (exists c, c <= i /\ A i c <> 0%Qc) /\ (exists r, r <= i /\ A r i <> 0%Qc)) /\
  (forall r c, r < c < n -> (exists r', r' <= r /\ A r' c <> 0%Qc) -> exists c', c <= c' < n /\ A r c' <> 0%Qc).
