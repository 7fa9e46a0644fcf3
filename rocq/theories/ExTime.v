(** ExTime.v - examples and findings for C77. *)
From Coq Require Import List Arith Bool ZArith QArith String Lia.
From Verif Require Import Base SMap ParModel ParSpec UtilModel UtilSpec TimeModel TimeSpec.
Import ListNotations.
Local Open Scope Z_scope.

(** a stopwatch over an overflow of the tick counter *)
Example C77_laps_example : in_order (2 ^ 64 - 5) [2 ^ 64 - 1; 2 ^ 64 + 7; 2 ^ 64 + 8] /\ otc_laps (map reading [2 ^ 64 - 1; 2 ^ 64 + 7]) (reading (2 ^ 64 + 8)) (otc_start (reading (2 ^ 64 - 5)) otc_new) = [4; 8; 1].
Proof. split; [cbn; lia|reflexivity]. Qed.
Example C77_scopes_example : consecutive 0 100 [(3, 10); (10, 12); (50, 90)] /\ measured [(3, 10); (10, 12); (50, 90)] = mkTs 49 3.
Proof. split; [cbn; lia|reflexivity]. Qed.
(** two calls, one of them failing, and a refresh with two calls *)
Definition a_run : list doing := [ACall (mkCall 1 (Some 4)); ARefresh 5 [mkCall 6 (Some 8); mkCall 9 (Some 14)] 20; ACall (mkCall 21 None); ACall (mkCall 30 (Some 31))].
Example C77_statistics_example : let s := fold_left sw_event (flat_map events a_run) sw_new in sw_rhsStats s = mkTs 11 4 /\ sw_jacStats s = mkTs 15 1 /\ sw_printed s = (4, 2, 2).
Proof. repeat split. Qed.
Example C77_calibration_example : toMsec 5000 (ca_stop 200000 1250 (ca_new 100000 1000)) = Ret (inject_Z (5000 * 250) / inject_Z 100000)%Q.
Proof. reflexivity. Qed.
Example C77_span_example : FormatTimeSpanSec 3725 = "1:02:05"%string /\ FormatTimeSpanMsec 3725007 = "1:02:05.007"%string.
Proof. split; reflexivity. Qed.
Example C77_components_example : solverTimingStats [[("a"%string, mkTs 1 1)]; [("b"%string, mkTs 2 2); ("c"%string, ts_new)]] = Ret [("a"%string, mkTs 1 1); ("b"%string, mkTs 2 2); ("c"%string, ts_new)].
Proof. reflexivity. Qed.
(** * Findings *)
(** C77: from 2^32 hours on the hours are wrong. *)
Theorem C77_span_refuted : exists sec, 0 <= sec < 2 ^ 64 /\ FormatTimeSpanSec sec = FormatTimeSpanSec 61 /\ sec <> 61.
Proof. exists (3600 * 2 ^ 32 + 61). split; [lia|]. split; [vm_compute; reflexivity|lia]. Qed.
Print Assumptions C77_span_refuted.
(** C77: stopping a stopwatch that does not run is not an error: it reports one tick more than the counter shows. *)
Theorem C77_stop_refuted : forall now, 0 <= now < 2 ^ 64 - 1 -> snd (otc_stop now otc_new) = now + 1.
Proof. intros now H. cbn [otc_stop snd]. unfold time_span, otc_new, ULONG_MOD. change (2 ^ 64) with 18446744073709551616 in H. symmetry. apply (Z.mod_unique _ _ (-1)); lia. Qed.
Print Assumptions C77_stop_refuted.
(** C77: a scope inside another of the same statistics is counted twice. *)
Theorem C77_nested_scopes_refuted : exists b1 b2 e2 e1, b1 <= b2 <= e2 /\ e2 <= e1 /\ e1 - b1 < ts_time (measured [(b2, e2); (b1, e1)]).
Proof. exists 0, 1, 9, 10. split; [lia|]. split; [lia|]. vm_compute. reflexivity. Qed.
Print Assumptions C77_nested_scopes_refuted.
(** C77: when the computation of a Jacobian throws, later calls of the right-hand side count as made for the Jacobian. *)
Theorem C77_broken_refresh_refuted : sw_printed (fold_left sw_event (ERefresh true 1 :: EBefore 2 :: call_events (mkCall 5 (Some 6)) ++ call_events (mkCall 7 (Some 8))) sw_new) = (2, 0, 2).
Proof. reflexivity. Qed.
Print Assumptions C77_broken_refresh_refuted.
(** C77: before it is stopped a calibrator divides by zero once the clock shows 100 ms, and a second stop spoils it. *)
Theorem C77_not_stopped_refuted : forall t m i, 100 <= m -> toMsec i (ca_new t m) = UB.
Proof. intros t m i H. unfold toMsec, ca_new, threshold. cbn [ca_msec ca_ticks]. rewrite (proj2 (Z.ltb_ge _ _) H). reflexivity. Qed.
Print Assumptions C77_not_stopped_refuted.
Theorem C77_second_stop_refuted : exists c, c = ca_stop 300000 1500 (ca_stop 200000 1250 (ca_new 100000 1000)) /\ toMsecAvailable c = true /\ ca_ticks c = 300001 /\ ca_msec c = 1250.
Proof. eexists. split; [reflexivity|]. repeat split. Qed.
Print Assumptions C77_second_stop_refuted.
