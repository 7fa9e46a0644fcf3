(** StepSpec.v - vocabulary for the statements about step size control. *)
From Coq Require Import List Arith Bool ZArith QArith Qcanon Reals.
From Verif Require Import Base VecModel VOps RkModel RkSpec StepModel.
Import ListNotations.
Local Open Scope R_scope.

(** Exact arithmetic with real powers *)
Definition Rltb (a b : R) : bool := if Rlt_dec a b then true else false.
Definition Rleb (a b : R) : bool := if Rle_dec a b then true else false.
Definition Reqb (a b : R) : bool := if Req_EM_T a b then true else false.
Definition RNum : Num := mkNum R 0 1 Rplus Rminus Rmult Rdiv Ropp Rabs Reqb Rltb Rleb.
Definition geom_eps : R := / 100000.
(** The controller with the true power function (positive tolerance and error) and an integer method order *)
Definition controlR (s : scset RNum) (h err : R) (order : nat) : R * bool * bool := control (N:=RNum) Rpower geom_eps s h err (INR order).
Definition newStep (r : R * bool * bool) : R := fst (fst r).
Definition accepted (r : R * bool * bool) : bool := snd (fst r).
Definition changed (r : R * bool * bool) : bool := snd r.

(** Sensible settings; the constructor's defaults satisfy this. *)
Definition sensible (s : scset RNum) : Prop :=
  0 < sc_tol s /\ 0 < sc_ins s /\ sc_ins s <= 1 /\ 1 <= sc_incMin s /\ (sc_incMax s = 0 \/ 1 <= sc_incMax s) /\
  0 <= sc_decMax s /\ sc_decMax s < 1 /\ 0 <= sc_maxThr s.
Definition default_settings : scset RNum := mkSc (N:=RNum) (/ 1000000) (8 / 10) (13 / 10) 2 (/ 10) 0.
(** The largest factor by which a rejected step shrinks *)
Definition shrink (s : scset RNum) : R := Rmax (sc_ins s * (1 - geom_eps)) (sc_decMax s).

(** A step of size h from (t, x) with a two-row (embedded) table: [x'] is the result of row [ix]; err is the norm of the difference of the two results. *)
Definition embedded_step (co : coeffs QcNum) (stages n ix : nat) (f : Qc -> list Qc -> Outcome (list Qc)) (norm : list Qc -> Outcome Qc) (h : Qc)
    (t : Qc) (x : list Qc) (x' : list Qc) (err : Qc) : Prop :=
  exists evals k hi lo d, textbook_stages co stages n f x t h evals k /\ textbook_result co stages n 0 x h k hi /\ textbook_result co stages n 1 x h k lo /\
    textbook_result co stages n ix x h k x' /\
    (length d = n /\ forall j, (j < n)%nat -> cmp_ d j = (cmp_ hi j - cmp_ lo j)%Qc) /\ norm d = Ret err.

(** * Adaptive stepping *)
Section Adaptive.
Context {N : Num} {W : Type}.
Notation T := (nT N).
(** Neither time nor state vector has changed. *)
Definition unmoved (s s' : rkst N W) : Prop := rk_t s' = rk_t s /\ rk_x s' = rk_x s.
(** Time and state vector are what the event controller made of the end of a step of size h. *)
Definition moved (ev : events N W) (s s' : rkst N W) (h : T) (trunc : bool) : Prop :=
  exists w next er, ev_end ev (rk_x s) next (nadd N (rk_t s) h) w = Ret (rk_w s', er) /\ rk_t s' = ev_t er /\ rk_x s' = ev_x er /\ trunc = ev_trunc er.
(** The controller's verdict on a step of size h with error err *)
Definition verdict (c : erkcfg N) (h err : T) : bool := e_nocheck c || snd (fst (e_sc c h err)).
(** The size it asks for next *)
Definition next_size (c : erkcfg N) (h err : T) : T :=
  if e_nocheck c then h else if snd (e_sc c h err) then fst (fst (e_sc c h err)) else h.
(** It asks for another size, which is at or below the minimum. *)
Definition below_min (c : erkcfg N) (h err : T) : bool := negb (e_nocheck c) && snd (e_sc c h err) && nleb N (next_size c h err) (e_hmin c).
(** The step size of the first attempt: the initial step size after setInitialState, the current one later *)
Definition first_size (c : erkcfg N) (s : rkst N W) : option T := if out_is_empty (rk_out s) then Some (e_hinit c) else rk_h s.
(** Attempts reported to the observers: the first has size h, each following one the size asked for after the one before. *)
Fixpoint sizes (c : erkcfg N) (h : option T) (l : list (postarg N)) : Prop :=
  match l with [] => True | a :: l' => h = Some (pa_h a) /\ sizes c (Some (next_size c (pa_h a) (pa_err a))) l' end.
Definition asks (c : erkcfg N) (h err : T) : bool := negb (e_nocheck c) && snd (e_sc c h err).
(** The size of the next step after an accepted one: if an event cut the step short, no more than h_after_switch (if that is set) *)
Definition after_size (c : erkcfg N) (h err : T) (trunc : bool) : T :=
  if trunc && nltb N (n0 N) (e_hafter c) && nltb N (e_hafter c) (next_size c h err) then e_hafter c else next_size c h err.
Definition refused (c : erkcfg N) (a : postarg N) : Prop :=
  pa_accepted a = false /\ pa_changed a = asks c (pa_h a) (pa_err a) /\ verdict c (pa_h a) (pa_err a) = false /\ below_min c (pa_h a) (pa_err a) = false.
End Adaptive.
(** The state of a solver between calls, for an n-dimensional problem and a table with the given number of stages: not started since
    setInitialState, or with work space and step size in place *)
Definition erk_ready {N W} (stages n : nat) (s : rkst N W) : Prop :=
  length (rk_x s) = n /\ (rk_out s = out_empty \/ (rk_h s <> None /\ shaped (rk_out s) stages n 2)).
