(** DrvSpec.v - vocabulary for C46, C52, C62. *)
From Coq Require Import List Arith Bool ZArith QArith Qcanon.
From Verif Require Import Base SpModel RkModel RkSpec UtilModel OutModel OutSpec DrvModel.
Import ListNotations.
Local Open Scope nat_scope.

(** k successful steps through the given states, with the attempts made in each *)
Definition steps_through {S} (sv : odesolver S) (s : S) (k : nat) (states : nat -> S) (atts : nat -> list obs) : Prop :=
  states 0 = s /\ forall i, i < k -> sv_step sv (states i) = (states (i + 1), atts i, Ret tt).
Definition attempts_of (k : nat) (atts : nat -> list obs) : list obs := concat (map atts (seq 0 k)).
(** k is the number of steps of length h to cover D: at least one, and the least which reaches D *)
Definition steps_to_cover (D h : Qc) (k : nat) : Prop := 1 <= k /\ (forall j, 1 <= j < k -> (natQ j * h < D)%Qc) /\ (D <= natQ k * h)%Qc.
(** the solver steps successfully from every state with property I to one, moving the time by d with property P *)
Definition steps_well {S} (sv : odesolver S) (I : S -> Prop) (P : Qc -> Prop) : Prop :=
  forall s, I s -> exists s' l, sv_step sv s = (s', l, Ret tt) /\ I s' /\ P (sv_time sv s' - sv_time sv s)%Qc.
(** the calls of the output options *)
Definition befores (e : list oevent) : list nat := flat_map (fun x => match x with OBefore k => [k] | _ => [] end) e.
Definition afters (e : list oevent) : list nat := flat_map (fun x => match x with OAfter k => [k] | _ => [] end) e.
Definition seen (e : list oevent) : list obs := flat_map (fun x => match x with OAttempt o => [o] | _ => [] end) e.

(** * Richardson: k passes of length h from time t0 and state x0 *)
Definition passes {S} (rs : ricsolver S) (p : nat) (h t0 : Qc) (x0 : list Qc) (s : S) (k : nat) (xs : nat -> list Qc) (ss : nat -> S) (es : nat -> option (list Qc)) : Prop :=
  xs 0 = x0 /\ ss 0 = s /\ forall i, i < k -> ric_pass rs p h (t0 + natQ i * h)%Qc (xs i) (ss i) = Ret (ss (i + 1), xs (i + 1), es i).
(** the reports of k passes: start time and error of those not skipped *)
Definition reports (h t0 : Qc) (k : nat) (es : nat -> option (list Qc)) : list (Qc * list Qc) :=
  flat_map (fun i => match es i with Some e => [((t0 + natQ i * h)%Qc, e)] | None => [] end) (seq 0 k).
(** none of the attempts was rejected, truncated or changed the step size *)
Definition undisturbed (l : list (postarg QcNum)) : Prop := Forall (fun a => pa_accepted (N:=QcNum) a = true /\ pa_trunc (N:=QcNum) a = false /\ pa_changed (N:=QcNum) a = false) l.
(** the flow of x' = sum_m a_m (t - c)^m (m < deg) from t to t + h *)
Definition poly_flow (deg : nat) (a : nat -> nat -> Qc) (c t h : Qc) (i : nat) : Qc :=
  qsum deg (fun m => a i m * ((qpow (t + h - c) (Datatypes.S m) - qpow (t - c) (Datatypes.S m)) / qn (Datatypes.S m)))%Qc.
