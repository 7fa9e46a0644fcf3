(** PropEv.v - properties of event location (C33, C34). *)
From Coq Require Import List Arith ZArith QArith Qcanon.
From Verif Require Import Base VecModel VOps RkModel EvModel EvSpec EvFacts3 EvFacts4.
Import ListNotations.
Local Open Scope nat_scope.

(** C33: the first step after a reset records the values at its start; the recorded states are consistent exactly if every
    one-directional function is on its near side. *)
Theorem C33_start : forall P (m : evrhs QcNum P) nz p x1 t1 c z, c_clean c = true -> 0 < nz -> zfCount m = nz -> length (zfFlags m) = nz ->
  zeroFunctions m p t1 x1 = Ret z -> length z = nz ->
  exists c', c_start m p x1 t1 c = Ret c' /\ sized m c' nz /\ c_zf1 c' = z /\ c_t1 c' = t1 /\
    (consistent m c' nz <-> forall i, i < nz -> near_side (nth i (zfFlags m) 0%Z) (nth i z 0%Qc)).
Proof. exact @start_fresh. Qed.
Print Assumptions C33_start.
(** C33: so does the first step after the controller is constructed. *)
Theorem C33_new_controller : forall P (m : evrhs QcNum P) nz p x1 t1 z, 0 < nz -> zfCount m = nz -> length (zfFlags m) = nz ->
  zeroFunctions m p t1 x1 = Ret z -> length z = nz ->
  exists c', c_start m p x1 t1 ctl_new = Ret c' /\ sized m c' nz /\ c_zf1 c' = z /\ c_t1 c' = t1 /\
    (consistent m c' nz <-> forall i, i < nz -> near_side (nth i (zfFlags m) 0%Z) (nth i z 0%Qc)).
Proof. exact (fun P m nz p x1 t1 z => @start_fresh P m nz p x1 t1 ctl_new z eq_refl). Qed.
Print Assumptions C33_new_controller.
(** C33: a reset makes the next step do so whatever steps, of whatever right-hand side, came before. *)
Theorem C33_reset : forall P (m : evrhs QcNum P) nz p x1 t1 c z, 0 < nz -> zfCount m = nz -> length (zfFlags m) = nz ->
  zeroFunctions m p t1 x1 = Ret z -> length z = nz ->
  exists c', c_start m p x1 t1 (c_reset c) = Ret c' /\ sized m c' nz /\ c_zf1 c' = z /\ c_t1 c' = t1 /\
    (consistent m c' nz <-> forall i, i < nz -> near_side (nth i (zfFlags m) 0%Z) (nth i z 0%Qc)).
Proof. exact @start_reset. Qed.
Print Assumptions C33_reset.

(** C33: a step in which no function crosses is left alone, and the states stay consistent. *)
Theorem C33_no_event : forall P (m : evrhs QcNum P) nz p x1 x2 t2 c z2, consistent m c nz -> zeroFunctions m p t2 x2 = Ret z2 -> length z2 = nz ->
  (forall i, i < nz -> ~ touches_at c z2 i) -> (forall i, i < nz -> ~ crosses_at c z2 i) ->
  exists c', c_end m p x1 x2 t2 c = Ret (p, c', mkEvres x2 t2 false None 0%Z) /\ consistent m c' nz /\ c_zf1 c' = z2 /\ c_t1 c' = c_t1 c.
Proof. exact @no_event. Qed.
Print Assumptions C33_no_event.

(** C33: a step with an event ends at t1 + (t2 - t1) * th with t1 <= t < t2, at the linear interpolation of the two states (as changed by the
    model's phase switch); the recorded values are interpolated likewise, or computed anew for the functions that ask for it, and the states stay consistent
    if those come out on their near side. *)
Theorem C33_event_located : forall P (m : evrhs QcNum P) nz p x1 x2 t2 c z2, consistent m c nz -> zeroFunctions m p t2 x2 = Ret z2 -> length z2 = nz ->
  length x2 <= length x1 -> (c_t1 c < t2)%Qc -> (forall i, i < nz -> ~ touches_at c z2 i) -> (exists i, i < nz /\ crosses_at c z2 i) ->
  exists i s, first_crossing c z2 nz i /\ qsign (nth i z2 0%Qc) s /\
    let th := cross_at c z2 i in
    let t := (c_t1 c + (t2 - c_t1 c) * th)%Qc in
    (c_t1 c <= t)%Qc /\ (t < t2)%Qc /\
    (switchPhase m p (one_transition nz i s) t (vbetween x1 x2 th) = Throw -> c_end m p x1 x2 t2 c = Throw) /\
    forall p' x' zb, switchPhase m p (one_transition nz i s) t (vbetween x1 x2 th) = Ret (p', x') ->
      zeroFunctions m p' t x' = Ret zb -> length zb = nz ->
      exists c', c_end m p x1 x2 t2 c = Ret (p', c', mkEvres x' t true (Some i) s) /\ sized m c' nz /\ c_t1 c' = c_t1 c /\
        (forall j, j < nz -> ev_z1 c' j = if recomputed (ev_flag c j) then nth j zb 0%Qc else between (ev_z1 c j) (nth j z2 0%Qc) th) /\
        ((forall j, j < nz -> recomputed (ev_flag c j) = true -> near_side (ev_flag c j) (nth j zb 0%Qc)) -> consistent m c' nz).
Proof. exact @event_located. Qed.
Print Assumptions C33_event_located.

(** C33 over any run: as long as no step ends with a function exactly at zero and recomputed functions come out on their near side,
    every reported time is within its step and the states stay consistent. *)
Theorem C33_run : forall P (m : evrhs QcNum P) nz l w w' es, consistent m (fst w) nz -> benign_run m nz l w -> ev_run m l w = Ret (w', es) ->
  consistent m (fst w') nz /\ Forall2 located l es.
Proof. exact @run_located. Qed.
Print Assumptions C33_run.

(** The precondition matters: a one-directional function that is on its far side and moves further away makes time run backwards. *)
Theorem C33_far_side_backwards : forall P (m : evrhs QcNum P) nz p x1 x2 t2 c z2 p' c' e j, sized m c nz -> zeroFunctions m p t2 x2 = Ret z2 -> length z2 = nz ->
  length x2 <= length x1 -> (c_t1 c < t2)%Qc -> j < nz -> ev_state c j = 0%Z ->
  (watches_down (ev_flag c j) /\ (ev_z1 c j < 0)%Qc /\ (nth j z2 0 < ev_z1 c j)%Qc) \/ (watches_up (ev_flag c j) /\ (0 < ev_z1 c j)%Qc /\ (ev_z1 c j < nth j z2 0)%Qc) ->
  c_end m p x1 x2 t2 c = Ret (p', c', e) -> (ev_t e < c_t1 c)%Qc.
Proof. exact @far_side_backwards. Qed.
Print Assumptions C33_far_side_backwards.

(** A downward crossing is located again and again, at the same time, for as long as the proposed steps go on downwards: such a model must turn the
    function back. *)
Theorem C33_repeated_event : forall P (m : evrhs QcNum P) l w w' es, at_zero m (fst w) -> Forall (fun s => falling_step m s w) l -> ev_run m l w = Ret (w', es) ->
  Forall2 (fun s (e : evres QcNum) => ev_trunc e = true /\ ev_t e = s_t1 s) l es.
Proof. exact @repeated_event. Qed.
Print Assumptions C33_repeated_event.

(** C34: the reported function is the first of those with the smallest interpolated crossing time, the model gets exactly its transition, the
    reported function is zero at the located point and no function has crossed there. *)
Theorem C34_earliest : forall P (m : evrhs QcNum P) nz p x1 x2 t2 c z2 p' c' e, consistent m c nz -> zeroFunctions m p t2 x2 = Ret z2 -> length z2 = nz ->
  length x2 <= length x1 -> (forall i, i < nz -> ~ touches_at c z2 i) -> (exists i, i < nz /\ crosses_at c z2 i) ->
  c_end m p x1 x2 t2 c = Ret (p', c', e) ->
  exists i s, ev_trunc e = true /\ ev_izf e = Some i /\ ev_type e = s /\ first_crossing c z2 nz i /\ qsign (nth i z2 0%Qc) s /\
    switchPhase m p (one_transition nz i s) (ev_t e) (vbetween x1 x2 (cross_at c z2 i)) = Ret (p', ev_x e) /\
    between (ev_z1 c i) (nth i z2 0%Qc) (cross_at c z2 i) = 0%Qc /\
    forall j, j < nz -> ~ crosses (ev_flag c j) (ev_state c j) (between (ev_z1 c j) (nth j z2 0%Qc) (cross_at c z2 i)).
Proof. exact @event_unique. Qed.
Print Assumptions C34_earliest.

(** C34: functions that reach exactly zero at the end of the step, with no other crossing, make the step fail. *)
Theorem C34_zero_at_end_fails : forall P (m : evrhs QcNum P) nz p x1 x2 t2 c z2, consistent m c nz -> zeroFunctions m p t2 x2 = Ret z2 -> length z2 = nz ->
  length x2 <= length x1 -> (forall i, i < nz -> ~ crosses_at c z2 i) -> (forall i, i < nz -> touches_at c z2 i -> ev_z1 c i <> 0%Qc) ->
  (exists i, i < nz /\ touches_at c z2 i) -> c_end m p x1 x2 t2 c = Throw.
Proof. exact @zero_end_fails. Qed.
Print Assumptions C34_zero_at_end_fails.
