(** PropTime.v - C77: stopwatches, statistics of times, calibration, time spans.  Vocabulary: TimeSpec.v; model: TimeModel.v. *)
From Coq Require Import List Arith Bool ZArith QArith String.
From Verif Require Import Base SMap ParModel ParSpec UtilModel UtilSpec TimeModel TimeSpec TimeFacts TimeFacts2.
Import ListNotations.
Local Open Scope Z_scope.

(** C77.  A stopwatch reports the durations between start, laps and stop, also when the tick counter overflows in between; together they are the whole time. *)
Theorem C77_laps : forall (a : Z) (laps : list Z) (b : Z), in_order a (laps ++ [b]) -> otc_laps (map reading laps) (reading b) (otc_start (reading a) otc_new) = durations a (laps ++ [b]).
Proof. intros a laps b. exact (laps_ok laps a b). Qed.
Print Assumptions C77_laps.
Theorem C77_laps_total : forall (a : Z) (laps : list Z) (b : Z), in_order a (laps ++ [b]) -> total (otc_laps (map reading laps) (reading b) (otc_start (reading a) otc_new)) = b - a.
Proof. intros a laps b H. exact (eq_trans (f_equal total (laps_ok laps a b H)) (durations_total laps a b)). Qed.
Print Assumptions C77_laps_total.
(** C77.  Scopes measured one after the other: the total of their durations, never more than the time they lie in, and their number. *)
Theorem C77_scopes : forall (l : list (Z * Z)) (a b : Z), consecutive a b l -> b - a < 2 ^ 64 -> Z.of_nat (List.length l) < 2 ^ 32 ->
  let s := measured (map (fun p => (reading (fst p), reading (snd p))) l) in ts_time s = total (map (fun p => snd p - fst p) l) /\ ts_time s <= b - a /\ ts_count s = Z.of_nat (List.length l).
Proof. exact measured_within. Qed.
Print Assumptions C77_scopes.
(** C77.  The statistics of a run: times and numbers of the calls of the right-hand side that returned and of the refreshes of the Jacobian; the calls are
    printed as those outside and those inside of refreshes. *)
Theorem C77_statistics : forall l : list doing, let s := fold_left sw_event (flat_map events l) sw_new in
  let n := count (completed (flat_map calls l)) in let j := count (completed (flat_map calls_for_J l)) in
  sw_rhsStats s = mkTs (total (completed (flat_map calls l)) mod 2 ^ 64) (n mod 2 ^ 32) /\ sw_jacStats s = mkTs (total (refreshes l) mod 2 ^ 64) (count (refreshes l) mod 2 ^ 32) /\
  sw_printed s = (n mod 2 ^ 32, (n - j) mod 2 ^ 32, j mod 2 ^ 32).
Proof. exact statistics_ok. Qed.
Print Assumptions C77_statistics.
(** C77.  A calibrator that ran from t0 to t1 ticks and m0 to m1 milliseconds converts iff it ran for 100 ms and some ticks; it converts in the ratio it measured. *)
Theorem C77_calibration : forall t0 t1 m0 m1 : Z, t0 <= t1 < t0 + 2 ^ 64 -> m0 <= m1 < m0 + 2 ^ 64 ->
  let c := ca_stop (reading t1) (reading m1) (ca_new (reading t0) (reading m0)) in
  (toMsecAvailable c = true <-> 100 <= m1 - m0 /\ t0 < t1) /\ (m1 - m0 < 100 -> forall i, toMsec i c = Throw) /\
  (toMsecAvailable c = true -> forall i, exists q, toMsec i c = Ret q /\ (q * inject_Z (t1 - t0) == inject_Z (i * (m1 - m0)))%Q).
Proof. exact available_iff. Qed.
Print Assumptions C77_calibration.
(** C77.  When the counter ticks r times per millisecond, r*m ticks are m milliseconds. *)
Theorem C77_constant_rate : forall t0 t1 m0 m1 r : Z, t0 <= t1 < t0 + 2 ^ 64 -> 100 <= m1 - m0 -> m1 < m0 + 2 ^ 64 -> 0 < r -> t1 - t0 = r * (m1 - m0) ->
  forall m, exists q, toMsec (r * m) (ca_stop (reading t1) (reading m1) (ca_new (reading t0) (reading m0))) = Ret q /\ (q == inject_Z m)%Q.
Proof. exact constant_rate. Qed.
Print Assumptions C77_constant_rate.
(** C77.  A time interval can always be printed: in milliseconds when they are available, else in ticks. *)
Theorem C77_interval_text : forall (fmt : Q -> string) (i : Z) (b : bool) (c : calib), (exists s, formatTimeInterval fmt i b c = Ret s) /\
  (toMsecAvailable c = false -> formatTimeInterval fmt i b c = Ret (utext i ++ " ticks")%string) /\
  (toMsecAvailable c = true -> exists q, toMsec i c = Ret q /\ formatTimeInterval fmt i true c = Ret (fmt q ++ " msec")%string /\
     formatTimeInterval fmt i false c = Ret (utext i ++ " ticks = " ++ fmt q ++ " msec")%string).
Proof. exact format_interval. Qed.
Print Assumptions C77_interval_text.
(** C77.  The clock in milliseconds never goes back, and differences are right to less than a millisecond. *)
Theorem C77_clock : forall s1 n1 s2 n2 : Z, 0 <= n1 < 1000000000 -> 0 <= n2 < 1000000000 -> 0 <= s1 -> s2 * 1000 + 1000 <= 2 ^ 64 -> s1 * 1000000000 + n1 <= s2 * 1000000000 + n2 ->
  let ns := (s2 * 1000000000 + n2) - (s1 * 1000000000 + n1) in let ms := clock_msec s2 n2 - clock_msec s1 n1 in 0 <= ms /\ Z.abs (ms * 1000000 - ns) < 1000000.
Proof. exact clock_difference. Qed.
Print Assumptions C77_clock.
(** C77.  A time span is printed as H:MM:SS with the right minutes and seconds, always; the hours are right below 2^32, and then different spans have different texts. *)
Theorem C77_span_seconds : forall sec : Z, 0 <= sec < 2 ^ 64 -> clock_text (FormatTimeSpanSec sec) ((sec / 3600) mod 2 ^ 32) (sec / 60 mod 60) (sec mod 60) /\
  (sec < 3600 * 2 ^ 32 -> sec = 3600 * ((sec / 3600) mod 2 ^ 32) + 60 * (sec / 60 mod 60) + sec mod 60).
Proof. intros sec H. exact (conj (span_sec sec H) (fun L => span_value sec (conj (proj1 H) L))). Qed.
Print Assumptions C77_span_seconds.
Theorem C77_span_milliseconds : forall msec : Z, 0 <= msec < 2 ^ 64 -> exists s ds, FormatTimeSpanMsec msec = (s ++ "." ++ ds)%string /\ digits_of 3 ds (msec mod 1000) /\
  clock_text s ((msec / 3600000) mod 2 ^ 32) (msec / 60000 mod 60) (msec / 1000 mod 60).
Proof. exact span_msec. Qed.
Print Assumptions C77_span_milliseconds.
Theorem C77_span_different : forall a b : Z, (0 <= a < 3600 * 2 ^ 32 -> 0 <= b < 3600 * 2 ^ 32 -> FormatTimeSpanSec a = FormatTimeSpanSec b -> a = b) /\
  (0 <= a < 3600000 * 2 ^ 32 -> 0 <= b < 3600000 * 2 ^ 32 -> FormatTimeSpanMsec a = FormatTimeSpanMsec b -> a = b).
Proof. exact (fun a b => conj (span_sec_inj a b) (span_msec_inj a b)). Qed.
Print Assumptions C77_span_different.
(** C77.  The timing statistics of a solver are those of its components; two components with the same key are reported by an exception. *)
Theorem C77_components : forall cs : list ts_map,
  (NoDup (map fst (List.concat cs)) -> exists r, solverTimingStats cs = Ret r /\ msorted TOstr r /\ forall k v, mfind TOstr k r = Some v <-> In (k, v) (List.concat cs)) /\
  (~ NoDup (map fst (List.concat cs)) -> solverTimingStats cs = Throw).
Proof. exact solver_stats. Qed.
Print Assumptions C77_components.
