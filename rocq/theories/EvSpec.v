(** EvSpec.v - vocabulary for the statements about event location. *)
From Coq Require Import List Arith Bool ZArith QArith Qcanon.
From Verif Require Import Base VecModel VOps RkModel EvModel.
Import ListNotations.
Local Open Scope nat_scope.

(** Which sign changes an event function reports: OdeRhs::ZeroFunctionFlag *)
Definition watches_down (fl : Z) : Prop := Z.land fl 3 = 1%Z.    (* PlusMinus *)
Definition watches_up (fl : Z) : Prop := Z.land fl 3 = 2%Z.      (* MinusPlus *)
Definition watches_both (fl : Z) : Prop := Z.land fl 3 = 3%Z.    (* BothDirections *)

(** The value z is on the side from which the watched crossing starts. *)
Definition near_side (fl : Z) (z : Qc) : Prop :=
  (watches_down fl /\ (0 <= z)%Qc) \/ (watches_up fl /\ (z <= 0)%Qc) \/ watches_both fl.
(** The recorded event state st agrees with the value z at the start of a step.  A function that has just been located has the value 0. *)
Definition agrees (fl st : Z) (z : Qc) : Prop :=
  (watches_down fl /\ (0 <= z)%Qc /\ (st = 0%Z \/ st = 1%Z)) \/
  (watches_up fl /\ (z <= 0)%Qc /\ (st = 0%Z \/ st = (-1)%Z)) \/
  (watches_both fl /\ ((st = 1%Z /\ (0 <= z)%Qc) \/ (st = (-1)%Z /\ (z <= 0)%Qc) \/ (st = 0%Z /\ z = 0%Qc))).
(** The value z2 is strictly on the other side. *)
Definition crosses (fl st : Z) (z2 : Qc) : Prop :=
  (watches_down fl /\ (z2 < 0)%Qc) \/ (watches_up fl /\ (0 < z2)%Qc) \/
  (watches_both fl /\ ((st = 1%Z /\ (z2 < 0)%Qc) \/ (st = (-1)%Z /\ (0 < z2)%Qc) \/ (st = 0%Z /\ z2 <> 0%Qc))).
(** The function reaches exactly zero at the end of the step, coming from one side. *)
Definition touches (st : Z) (z2 : Qc) : Prop := z2 = 0%Qc /\ st <> 0%Z.

(** The time, as a fraction of the step, at which the straight line from z1 to z2 passes through zero *)
Definition cross_time (z1 z2 : Qc) : Qc := (z1 / (z1 - z2))%Qc.
Definition between (a b th : Qc) : Qc := (a * (1 - th) + b * th)%Qc.
Definition vbetween (x1 x2 : list Qc) (th : Qc) : list Qc := map (fun i => between (nth i x1 0%Qc) (nth i x2 0%Qc) th) (seq 0 (length x2)).
Definition qsign (x : Qc) (s : Z) : Prop := ((x < 0)%Qc /\ s = (-1)%Z) \/ ((0 < x)%Qc /\ s = 1%Z) \/ (x = 0%Qc /\ s = 0%Z).
(** transitions: zero everywhere except at one place *)
Definition one_transition (n i : nat) (s : Z) : list Z := map (fun j => if Nat.eqb j i then s else 0%Z) (seq 0 n).

Definition ev_flag (c : ctl QcNum) i := nth i (c_flags c) 0%Z.
Definition ev_state (c : ctl QcNum) i := nth i (c_state c) 0%Z.
Definition ev_z1 (c : ctl QcNum) i : Qc := nth i (c_zf1 c) 0%Qc.

(** The controller is in use (a step was started) with nz functions. *)
Definition sized {P} (m : evrhs QcNum P) (c : ctl QcNum) (nz : nat) : Prop :=
  0 < nz /\ zfCount m = nz /\ c_flags c = zfFlags m /\ length (zfFlags m) = nz /\ c_clean c = false /\ c_haveZf c = true /\
  c_rec c = existsb recomputed (zfFlags m) /\ length (c_zf1 c) = nz /\ length (c_state c) = nz.
Definition consistent {P} (m : evrhs QcNum P) (c : ctl QcNum) (nz : nat) : Prop :=
  sized m c nz /\ forall i, i < nz -> agrees (ev_flag c i) (ev_state c i) (ev_z1 c i).
Definition crosses_at (c : ctl QcNum) (z2 : list Qc) i : Prop := crosses (ev_flag c i) (ev_state c i) (nth i z2 0%Qc).
Definition touches_at (c : ctl QcNum) (z2 : list Qc) i : Prop := touches (ev_state c i) (nth i z2 0%Qc).
Definition cross_at (c : ctl QcNum) (z2 : list Qc) i : Qc := cross_time (ev_z1 c i) (nth i z2 0%Qc).
(** i is the first of the crossing functions with the smallest crossing time. *)
Definition first_crossing (c : ctl QcNum) (z2 : list Qc) (nz i : nat) : Prop :=
  i < nz /\ crosses_at c z2 i /\
  forall j, j < nz -> crosses_at c z2 j -> (cross_at c z2 i <= cross_at c z2 j)%Qc /\ (j < i -> (cross_at c z2 i < cross_at c z2 j)%Qc).

(** A run of the controller over steps (x1, t1, x2, t2) proposed by a solver *)
Record sstep : Type := mkStep { s_x1 : list Qc; s_t1 : Qc; s_x2 : list Qc; s_t2 : Qc }.
Definition ev_one {P} (m : evrhs QcNum P) (s : sstep) (w : ctl QcNum * P) : Outcome ((ctl QcNum * P) * evres QcNum) :=
  w1 <- ev_start (linear_events m) (s_x1 s) (s_t1 s) w ;; ev_end (linear_events m) (s_x1 s) (s_x2 s) (s_t2 s) w1.
Fixpoint ev_run {P} (m : evrhs QcNum P) (l : list sstep) (w : ctl QcNum * P) : Outcome ((ctl QcNum * P) * list (evres QcNum)) :=
  match l with
  | [] => Ret (w, [])
  | s :: r => a <- ev_one m s w ;; b <- ev_run m r (fst a) ;; Ret (fst b, snd a :: snd b)
  end.
(** The conditions on one step: time goes forward, no function ends exactly at zero when it was on one side before, the functions
    that are computed anew after a switch come out on their near side. *)
Definition benign_step {P} (m : evrhs QcNum P) (nz : nat) (s : sstep) (w : ctl QcNum * P) : Prop :=
  (s_t1 s < s_t2 s)%Qc /\ length (s_x2 s) <= length (s_x1 s) /\
  (forall z2, zeroFunctions m (snd w) (s_t2 s) (s_x2 s) = Ret z2 -> length z2 = nz /\ forall i, i < nz -> ~ touches_at (fst w) z2 i) /\
  (forall tr t x p' x' z, switchPhase m (snd w) tr t x = Ret (p', x') -> zeroFunctions m p' t x' = Ret z ->
     length z = nz /\ forall i, i < nz -> recomputed (nth i (zfFlags m) 0%Z) = true -> near_side (nth i (zfFlags m) 0%Z) (nth i z 0%Qc)).
Fixpoint benign_run {P} (m : evrhs QcNum P) (nz : nat) (l : list sstep) (w : ctl QcNum * P) : Prop :=
  match l with
  | [] => True
  | s :: r => benign_step m nz s w /\ forall a, ev_one m s w = Ret a -> benign_run m nz r (fst a)
  end.
(** What the controller reports for one proposed step: an event at a time in [t1, t2), or the step unchanged *)
Definition located (s : sstep) (e : evres QcNum) : Prop :=
  (s_t1 s <= ev_t e)%Qc /\ (ev_trunc e = true -> (ev_t e < s_t2 s)%Qc) /\ (ev_trunc e = false -> ev_t e = s_t2 s /\ ev_x e = s_x2 s).
(** One function reporting downward crossings, not computed anew after a switch, which has the value zero *)
Definition at_zero {P} (m : evrhs QcNum P) (c : ctl QcNum) : Prop := consistent m c 1 /\ watches_down (ev_flag c 0) /\ recomputed (ev_flag c 0) = false /\ ev_z1 c 0 = 0%Qc.
(** A proposed step that ends below zero, with a model that keeps its phase state *)
Definition falling_step {P} (m : evrhs QcNum P) (s : sstep) (w : ctl QcNum * P) : Prop :=
  length (s_x2 s) <= length (s_x1 s) /\ (exists z, zeroFunctions m (snd w) (s_t2 s) (s_x2 s) = Ret [z] /\ (z < 0)%Qc) /\
  (forall tr t x p' x', switchPhase m (snd w) tr t x = Ret (p', x') -> p' = snd w).
