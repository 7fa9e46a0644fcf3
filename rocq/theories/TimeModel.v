(** TimeModel.v - stopwatches, timer calibration, time spans, timing part of the statistics output.
    timing/OpaqueTickCounter.h, src/OpaqueTickCounter.cpp, timing/TimingStats.h, timing/TimerCalibrator.h, src/TimerCalibrator.cpp, util/sys_time.h,
    ode/ode_solver_output.h 158-215, ode/interfaces/OdeSolver.h 208-221.
    Release build: ASSERT is nothing.  Readings of the tick counter (__rdtsc) and of the clock are inputs.  unsigned long has 64 bits (Linux). *)
From Coq Require Import List Arith Bool ZArith QArith String Ascii.
From Verif Require Import Base SMap ParModel UtilModel.
Import ListNotations.
Local Open Scope Z_scope.

(** * OpaqueTickCounter: the value of tStart; ~0 when it is not running (OpaqueTickCounter.h 23) *)
Definition otc : Type := Z.
Definition otc_new : otc := ULONG_MOD - 1.
(** OpaqueTickCounter.cpp 14-18 *)
Definition otc_start (now : Z) (c : otc) : otc := now.
(** TimeSpan (OpaqueTickCounter.h 18-20), Stop (cpp 20-27), Lap (cpp 29-35) *)
Definition time_span (t1 t2 : Z) : Z := (t2 - t1) mod ULONG_MOD.
Definition otc_stop (now : Z) (c : otc) : otc * Z := (otc_new, time_span c now).
Definition otc_lap (now : Z) (c : otc) : otc * Z := (now, time_span c now).
(** several laps, then stop *)
Fixpoint otc_laps (laps : list Z) (last : Z) (c : otc) : list Z :=
  match laps with
  | [] => [snd (otc_stop last c)]
  | t :: l => let (c', d) := otc_lap t c in d :: otc_laps l last c'
  end.

(** * ScopedTimeMeasurer (TimingStats.h 52-69): the constructor starts the stopwatch, the destructor stops it and adds *)
Definition measure (b e : Z) (s : tstats) : tstats := ts_add (snd (otc_stop e (otc_start b otc_new))) s.
Definition measured (l : list (Z * Z)) : tstats := fold_left (fun s p => measure (fst p) (snd p) s) l ts_new.

(** * Timing in OdeSolverStatisticsOutput (ode_solver_output.h 158-163, 193-213) *)
Inductive sev := EBefore (t : Z) | EAfter (t : Z) | ERefresh (start : bool) (t : Z).
Record swatch : Type := mkSw { sw_rhs : otc; sw_rhsStats : tstats; sw_forJ : Z; sw_computing : bool; sw_jac : otc; sw_jacStats : tstats }.
Definition sw_new : swatch := mkSw otc_new ts_new 0 false otc_new ts_new.
Definition sw_event (s : swatch) (e : sev) : swatch :=
  match e with
  | EBefore t => mkSw (otc_start t (sw_rhs s)) (sw_rhsStats s) (sw_forJ s) (sw_computing s) (sw_jac s) (sw_jacStats s)
  | EAfter t => let (c, d) := otc_stop t (sw_rhs s) in
                mkSw c (ts_add d (sw_rhsStats s)) (if sw_computing s then (sw_forJ s + 1) mod UINT_MOD else sw_forJ s) (sw_computing s) (sw_jac s) (sw_jacStats s)
  | ERefresh true t => mkSw (sw_rhs s) (sw_rhsStats s) (sw_forJ s) true (otc_start t (sw_jac s)) (sw_jacStats s)
  | ERefresh false t => let (c, d) := otc_stop t (sw_jac s) in
                        mkSw (sw_rhs s) (sw_rhsStats s) (sw_forJ s) false c (ts_add d (sw_jacStats s))
  end.
(** the three numbers of 254-256: total, without those for the Jacobian, for the Jacobian (unsigned difference) *)
Definition sw_printed (s : swatch) : Z * Z * Z := (ts_count (sw_rhsStats s), (ts_count (sw_rhsStats s) - sw_forJ s) mod UINT_MOD, sw_forJ s).

(** * TimerCalibrator *)
Record calib : Type := mkCal { ca_timer : otc; ca_ticks : Z; ca_msec : Z; ca_stopped : bool }.
(** constructor 12-17: the clock reading is kept in m_msecInterval *)
Definition ca_new (tick msec : Z) : calib := mkCal (otc_start tick otc_new) 0 msec false.
(** stop 19-26 *)
Definition ca_stop (tick msec : Z) (c : calib) : calib :=
  let (t, d) := otc_stop tick (ca_timer c) in mkCal t d ((msec - ca_msec c) mod ULONG_MOD) true.
Definition threshold : Z := 100.
(** toMsecAvailable 28-30 *)
Definition toMsecAvailable (c : calib) : bool := ca_stopped c && (threshold <=? ca_msec c) && (0 <? ca_ticks c).
(** toMsec 36-42.  Exact arithmetic; UB stands for the floating-point division by zero. *)
Definition toMsec (interval : Z) (c : calib) : Outcome Q :=
  if ca_msec c <? threshold then Throw
  else if ca_ticks c =? 0 then UB else Ret (inject_Z (interval * ca_msec c) / inject_Z (ca_ticks c))%Q.
(** formatTimeInterval 44-57; [fmt] prints a double *)
Definition utext (z : Z) : string := to_string_N (Z.to_N z).
Definition formatTimeInterval (fmt : Q -> string) (interval : Z) (noTicksIfPossible : bool) (c : calib) : Outcome string :=
  if noTicksIfPossible && toMsecAvailable c then m <- toMsec interval c ;; Ret (fmt m ++ " msec")%string
  else if toMsecAvailable c then m <- toMsec interval c ;; Ret (utext interval ++ " ticks" ++ " = " ++ fmt m ++ " msec")%string
  else Ret (utext interval ++ " ticks")%string.

(** * sys_time.h *)
(** GetClockTimeMsec 62-67 *)
Definition clock_msec (tv_sec tv_nsec : Z) : Z := (tv_sec * 1000 + tv_nsec / 1000000) mod ULONG_MOD.
(** setw(n) << setfill('0') *)
Fixpoint fill0 (n : nat) (s : string) : string := match n with O => s | S k => String "0" (fill0 k s) end.
Definition padded (w : nat) (z : Z) : string := fill0 (w - String.length (utext z)) (utext z).
(** FormatTimeSpanSec 74-84: hours, minutes, seconds are unsigned int, the products are of unsigned int, the difference is unsigned long *)
Definition FormatTimeSpanSec (sec : Z) : string :=
  let timeHr := (sec / 3600) mod UINT_MOD in
  let timeMin := (sec / 60) mod 60 in
  let timeSec := ((sec - (60 * ((60 * timeHr + timeMin) mod UINT_MOD)) mod UINT_MOD) mod ULONG_MOD) mod UINT_MOD in
  (utext timeHr ++ ":" ++ padded 2 timeMin ++ ":" ++ padded 2 timeSec)%string.
(** FormatTimeSpanMsec 86-91 *)
Definition FormatTimeSpanMsec (msec : Z) : string := (FormatTimeSpanSec (msec / 1000) ++ "." ++ padded 3 (msec mod 1000))%string.

(** * OdeSolver::timingStats 208-221: the statistics of the components in one map *)
Definition ts_map : Type := list (string * tstats).
Fixpoint gather_one (items : ts_map) (r : ts_map) : Outcome ts_map :=
  match items with
  | [] => Ret r
  | (k, v) :: t => match mfind TOstr k r with Some _ => Throw | None => gather_one t (mput TOstr k v r) end
  end.
Fixpoint gather (cs : list ts_map) (r : ts_map) : Outcome ts_map :=
  match cs with [] => Ret r | c :: t => r' <- gather_one c r ;; gather t r' end.
Definition solverTimingStats (cs : list ts_map) : Outcome ts_map := gather cs [].
