(** TimeFacts.v - proofs for C77. *)
From Coq Require Import List Arith Bool ZArith QArith Lia Lqa String Ascii.
From Verif Require Import Base BaseFacts SMap ParModel LexModel LexSpec ParSpec ParFacts UtilModel UtilSpec UtilFacts UtilFacts2 UtilFacts3 TimeModel TimeSpec.
Import ListNotations.
Local Open Scope Z_scope.

Lemma span_ok a b : a <= b < a + 2 ^ 64 -> time_span (reading a) (reading b) = b - a.
Proof. intros H. unfold time_span, reading, ULONG_MOD. rewrite <- Zminus_mod. change (2 ^ 64) with 18446744073709551616 in *. apply Z.mod_small. lia. Qed.
Lemma span_mod a b : time_span (reading a) (reading b) = (b - a) mod 2 ^ 64.
Proof. unfold time_span, reading, ULONG_MOD. rewrite <- Zminus_mod. reflexivity. Qed.
Lemma last_in_order a l t : in_order a (l ++ [t]) -> exists c, in_order a l /\ In c (a :: l) /\ c <= t < c + 2 ^ 64.
Proof. revert a. induction l as [|x l IH]; cbn; intros a H; [exists a; intuition|]. destruct H as (A & B). destruct (IH _ B) as (c & D & E & F). exists c. split; [auto|]. split; [cbn in E; tauto|exact F]. Qed.
Lemma laps_ok laps : forall a b, in_order a (laps ++ [b]) -> otc_laps (map reading laps) (reading b) (reading a) = durations a (laps ++ [b]).
Proof.
  induction laps as [|t l IH]; intros a b H; cbn in *.
  - rewrite span_ok by tauto. reflexivity.
  - destruct H as (A & B). rewrite span_ok by exact A. f_equal. apply IH. exact B.
Qed.
Lemma durations_total l : forall a b, total (durations a (l ++ [b])) = b - a.
Proof. unfold total. induction l as [|t l IH]; intros a b; cbn; [lia|]. rewrite IH. lia. Qed.
Lemma measured_fold l : forall s, fold_left (fun s p => measure (fst p) (snd p) s) (map (fun p => (reading (fst p), reading (snd p))) l) s =
  fold_left (fun s t => ts_add t s) (map (fun p => (snd p - fst p) mod 2 ^ 64) l) s.
Proof. induction l as [|[b e] l IH]; intros s; cbn [map fold_left fst snd]; [reflexivity|]. rewrite IH. unfold measure, otc_start, otc_stop. cbn [snd]. rewrite span_mod. reflexivity. Qed.
Lemma total_mod l : total (map (fun x => x mod 2 ^ 64) l) mod 2 ^ 64 = total l mod 2 ^ 64.
Proof. unfold total. induction l as [|x l IH]; [reflexivity|]. cbn [map fold_right]. rewrite Zplus_mod, IH, Zmod_mod, <- Zplus_mod. reflexivity. Qed.
Lemma measured_ok l : measured (map (fun p => (reading (fst p), reading (snd p))) l) = mkTs (total (map (fun p => snd p - fst p) l) mod 2 ^ 64) (Z.of_nat (List.length l) mod 2 ^ 32).
Proof.
  unfold measured. rewrite measured_fold. fold (timed (map (fun p => (snd p - fst p) mod 2 ^ 64) l)). rewrite timed_ok, map_length. change ULONG_MOD with (2 ^ 64). change UINT_MOD with (2 ^ 32).
  f_equal. rewrite <- (map_map (fun p => snd p - fst p) (fun x => x mod 2 ^ 64)). apply total_mod.
Qed.
Lemma consecutive_total l : forall a b, consecutive a b l -> 0 <= total (map (fun p => snd p - fst p) l) <= b - a.
Proof. unfold total. induction l as [|[s e] l IH]; intros a b H; cbn in *; [lia|]. destruct H as (A & B & C). specialize (IH _ _ C). lia. Qed.
Lemma measured_within l a b : consecutive a b l -> b - a < 2 ^ 64 -> Z.of_nat (List.length l) < 2 ^ 32 ->
  ts_time (measured (map (fun p => (reading (fst p), reading (snd p))) l)) = total (map (fun p => snd p - fst p) l) /\ ts_time (measured (map (fun p => (reading (fst p), reading (snd p))) l)) <= b - a /\
  ts_count (measured (map (fun p => (reading (fst p), reading (snd p))) l)) = Z.of_nat (List.length l).
Proof.
  intros H L C. pose proof (consecutive_total _ _ _ H) as T. rewrite measured_ok. cbn [ts_time ts_count]. rewrite !Z.mod_small by lia. lia.
Qed.
(** statistics *)
Lemma ts_add_merge t s : ts_add (t mod 2 ^ 64) s = ts_add t s.
Proof. unfold ts_add. f_equal. change ULONG_MOD with (2 ^ 64). rewrite Zplus_mod, Zmod_mod, <- Zplus_mod. reflexivity. Qed.
Lemma completed_app a b : completed (a ++ b) = completed a ++ completed b.
Proof. unfold completed. apply flat_map_app. Qed.
Lemma timed_snoc l t : timed (l ++ [t]) = ts_add t (timed l).
Proof. unfold timed. rewrite fold_left_app. reflexivity. Qed.
(** state of the statistics: times of calls, number of them for the Jacobian, times of refreshes *)
Definition sw_is (s : swatch) (cs : list Z) (j : Z) (comp : bool) (rs : list Z) : Prop :=
  sw_rhsStats s = timed cs /\ sw_forJ s = j mod 2 ^ 32 /\ sw_computing s = comp /\ sw_jacStats s = timed rs.
Lemma call_step s cs j comp rs c : sw_is s cs j comp rs ->
  sw_is (fold_left sw_event (call_events c) s) (cs ++ completed [c]) (if comp then j + count (completed [c]) else j) comp rs /\ sw_jac (fold_left sw_event (call_events c) s) = sw_jac s.
Proof.
  intros (A & B & C & D). destruct c as [b [e|]]; cbn -[reading Z.pow Z.modulo].
  - split; [|reflexivity]. repeat split; cbn -[reading Z.pow Z.modulo]; [|rewrite C; destruct comp; [|exact B]|exact C|exact D].
    + unfold otc_start. rewrite span_mod, ts_add_merge, A, timed_snoc. reflexivity.
    + rewrite B. change UINT_MOD with (2 ^ 32). change (count [e - b]) with 1. rewrite Zplus_mod_idemp_l. reflexivity.
  - split; [|reflexivity]. repeat split; cbn -[reading Z.pow Z.modulo]; rewrite ?app_nil_r; auto. change (count []) with 0. rewrite Z.add_0_r. destruct comp; exact B.
Qed.
Lemma count_app a b : count (a ++ b) = count a + count b.
Proof. unfold count. rewrite app_length. lia. Qed.
Lemma calls_step l : forall s cs j comp rs, sw_is s cs j comp rs ->
  sw_is (fold_left sw_event (flat_map call_events l) s) (cs ++ completed l) (if comp then j + count (completed l) else j) comp rs /\ sw_jac (fold_left sw_event (flat_map call_events l) s) = sw_jac s.
Proof.
  induction l as [|c l IH]; intros s cs j comp rs H; cbn [flat_map].
  - cbn. rewrite app_nil_r. change (count []) with 0. rewrite Z.add_0_r. split; [|reflexivity]. destruct comp; exact H.
  - rewrite fold_left_app. destruct (call_step _ _ _ _ _ c H) as (A & B). destruct (IH _ _ _ _ _ A) as (C & D). split; [|congruence].
    rewrite (completed_app [c] l : completed (c :: l) = _), app_assoc, count_app. destruct comp; [|exact C]. rewrite Z.add_assoc. exact C.
Qed.
Lemma doing_step s cs j rs d : sw_is s cs j false rs ->
  sw_is (fold_left sw_event (events d) s) (cs ++ completed (calls d)) (j + count (completed (calls_for_J d))) false (rs ++ refreshes [d]).
Proof.
  intros H. destruct d as [c|b l e].
  - cbn [events calls calls_for_J refreshes flat_map]. rewrite !app_nil_r. change (count (completed [])) with 0. rewrite Z.add_0_r. apply (call_step _ _ _ _ _ c H).
  - cbn [events calls calls_for_J refreshes flat_map app]. cbn [fold_left]. rewrite fold_left_app.
    assert (G : sw_is (sw_event s (ERefresh true (reading b))) cs j true rs) by (destruct H as (A & B & C & D); repeat split; assumption).
    destruct (calls_step l _ _ _ _ _ G) as ((A & B & C & D) & E). set (s1 := fold_left sw_event (flat_map call_events l) (sw_event s (ERefresh true (reading b)))) in *.
    change (sw_jac (sw_event s (ERefresh true (reading b)))) with (reading b) in E. clearbody s1. cbn [fold_left]. unfold sw_is, sw_event, otc_stop. cbn [sw_rhsStats sw_forJ sw_computing sw_jacStats].
    split; [exact A|]. split; [exact B|]. split; [reflexivity|]. rewrite E, span_mod, ts_add_merge, D, timed_snoc. reflexivity.
Qed.
Lemma doings_step l : forall s cs j rs, sw_is s cs j false rs ->
  sw_is (fold_left sw_event (flat_map events l) s) (cs ++ completed (flat_map calls l)) (j + count (completed (flat_map calls_for_J l))) false (rs ++ refreshes l).
Proof.
  induction l as [|d l IH]; intros s cs j rs H; cbn [flat_map].
  - cbn. rewrite !app_nil_r. change (count []) with 0. rewrite Z.add_0_r. exact H.
  - rewrite fold_left_app. pose proof (IH _ _ _ _ (doing_step _ _ _ _ d H)) as G. rewrite !completed_app, count_app, app_assoc, Z.add_assoc.
    replace (rs ++ refreshes (d :: l)) with ((rs ++ refreshes [d]) ++ refreshes l); [exact G|]. rewrite <- app_assoc. f_equal. unfold refreshes. cbn [flat_map]. rewrite app_nil_r. reflexivity.
Qed.
Lemma statistics_ok l : let s := fold_left sw_event (flat_map events l) sw_new in let n := count (completed (flat_map calls l)) in let j := count (completed (flat_map calls_for_J l)) in
  sw_rhsStats s = mkTs (total (completed (flat_map calls l)) mod 2 ^ 64) (n mod 2 ^ 32) /\ sw_jacStats s = mkTs (total (refreshes l) mod 2 ^ 64) (count (refreshes l) mod 2 ^ 32) /\
  sw_printed s = (n mod 2 ^ 32, (n - j) mod 2 ^ 32, j mod 2 ^ 32).
Proof.
  intros s n j. assert (H : sw_is sw_new [] 0 false []) by (repeat split). destruct (doings_step l _ _ _ _ H) as (A & B & C & D). fold s in A, B, C, D. cbn [app] in *.
  rewrite timed_ok in A, D. split; [exact A|]. split; [exact D|]. unfold sw_printed. rewrite A, B. cbn [ts_count]. fold (count (completed (flat_map calls l))). fold n. change UINT_MOD with (2 ^ 32). rewrite Z.add_0_l. fold j.
  rewrite <- Zminus_mod. reflexivity.
Qed.
Lemma completed_in l : count (completed (flat_map calls_for_J l)) <= count (completed (flat_map calls l)).
Proof.
  induction l as [|d l IH]; [cbn; lia|]. cbn [flat_map]. rewrite !completed_app, !count_app. destruct d as [c|]; cbn [calls calls_for_J]; [|lia]. change (count (completed [])) with 0. unfold count at 2. lia.
Qed.
(** calibration *)
Lemma calibrated (t0 t1 m0 m1 : Z) : t0 <= t1 < t0 + 2 ^ 64 -> m0 <= m1 < m0 + 2 ^ 64 ->
  ca_stop (reading t1) (reading m1) (ca_new (reading t0) (reading m0)) = mkCal otc_new (t1 - t0) (m1 - m0) true.
Proof.
  intros T M. unfold ca_stop, ca_new. cbn [ca_timer ca_msec otc_stop]. unfold otc_start, otc_stop. rewrite span_ok by exact T. f_equal. apply (span_ok _ _ M).
Qed.
Lemma available_iff t0 t1 m0 m1 : t0 <= t1 < t0 + 2 ^ 64 -> m0 <= m1 < m0 + 2 ^ 64 ->
  let c := ca_stop (reading t1) (reading m1) (ca_new (reading t0) (reading m0)) in
  (toMsecAvailable c = true <-> 100 <= m1 - m0 /\ t0 < t1) /\ (m1 - m0 < 100 -> forall i, toMsec i c = Throw) /\
  (toMsecAvailable c = true -> forall i, exists q, toMsec i c = Ret q /\ (q * inject_Z (t1 - t0) == inject_Z (i * (m1 - m0)))%Q).
Proof.
  intros T M. cbn zeta. rewrite calibrated by assumption. unfold toMsecAvailable, toMsec, threshold. cbn [ca_stopped ca_msec ca_ticks andb]. split; [|split].
  - rewrite andb_true_iff, Z.leb_le, Z.ltb_lt. lia.
  - intros L i. rewrite (proj2 (Z.ltb_lt _ _) L). reflexivity.
  - rewrite andb_true_iff, Z.leb_le, Z.ltb_lt. intros (A & B) i. rewrite (proj2 (Z.ltb_ge _ _) A). destruct (Z.eqb_spec (t1 - t0) 0); [lia|]. eexists. split; [reflexivity|].
    field. intros E. apply (proj1 (inject_Z_injective _ 0)) in E. lia.
Qed.
Lemma constant_rate t0 t1 m0 m1 r : t0 <= t1 < t0 + 2 ^ 64 -> 100 <= m1 - m0 -> m1 < m0 + 2 ^ 64 -> 0 < r -> t1 - t0 = r * (m1 - m0) ->
  forall m, exists q, toMsec (r * m) (ca_stop (reading t1) (reading m1) (ca_new (reading t0) (reading m0))) = Ret q /\ (q == inject_Z m)%Q.
Proof.
  intros T L M R E m. rewrite calibrated by (auto; lia). unfold toMsec, threshold. cbn [ca_msec ca_ticks]. rewrite (proj2 (Z.ltb_ge _ _) L). destruct (Z.eqb_spec (t1 - t0) 0); [nia|]. eexists. split; [reflexivity|].
  rewrite E, !inject_Z_mult. field. split; intros Q; apply (proj1 (inject_Z_injective _ 0)) in Q; nia.
Qed.
Lemma format_interval (fmt : Q -> string) i b c : (exists s, formatTimeInterval fmt i b c = Ret s) /\
  (toMsecAvailable c = false -> formatTimeInterval fmt i b c = Ret (utext i ++ " ticks")%string) /\
  (toMsecAvailable c = true -> exists q, toMsec i c = Ret q /\ formatTimeInterval fmt i true c = Ret (fmt q ++ " msec")%string /\
     formatTimeInterval fmt i false c = Ret (utext i ++ " ticks = " ++ fmt q ++ " msec")%string).
Proof.
  unfold formatTimeInterval. destruct (toMsecAvailable c) eqn:A.
  - unfold toMsecAvailable in A. rewrite !andb_true_iff, Z.leb_le, Z.ltb_lt in A. destruct A as ((S & A) & B).
    assert (E : exists q, toMsec i c = Ret q) by (unfold toMsec; rewrite (proj2 (Z.ltb_ge _ _) A); destruct (Z.eqb_spec (ca_ticks c) 0); [lia|eauto]).
    destruct E as (q & E). rewrite E. cbn [obind andb]. split; [destruct b; cbn; eauto|]. split; [discriminate|]. intros _. exists q. auto.
  - rewrite andb_false_r. split; [eauto|]. split; [auto|discriminate].
Qed.
(** clock *)
Lemma clock_ok sec nsec : 0 <= nsec < 1000000000 -> 0 <= sec -> sec * 1000 + 1000 <= 2 ^ 64 ->
  clock_msec sec nsec = (sec * 1000000000 + nsec) / 1000000.
Proof.
  intros A B C. unfold clock_msec, ULONG_MOD. change (2 ^ 64) with 18446744073709551616 in C. replace (sec * 1000000000 + nsec) with (nsec + sec * 1000 * 1000000) by lia. rewrite Z.div_add by lia.
  assert (0 <= nsec / 1000000 < 1000) by (split; [apply Z.div_pos; lia|apply Z.div_lt_upper_bound; lia]). rewrite Z.mod_small by lia. lia.
Qed.
Lemma clock_difference s1 n1 s2 n2 : 0 <= n1 < 1000000000 -> 0 <= n2 < 1000000000 -> 0 <= s1 -> s2 * 1000 + 1000 <= 2 ^ 64 -> s1 * 1000000000 + n1 <= s2 * 1000000000 + n2 ->
  let ns := (s2 * 1000000000 + n2) - (s1 * 1000000000 + n1) in let ms := clock_msec s2 n2 - clock_msec s1 n1 in 0 <= ms /\ Z.abs (ms * 1000000 - ns) < 1000000.
Proof.
  intros A B C D E. cbn zeta. rewrite !clock_ok by lia.
  pose proof (Z.div_mod (s2 * 1000000000 + n2) 1000000 ltac:(lia)). pose proof (Z.div_mod (s1 * 1000000000 + n1) 1000000 ltac:(lia)).
  pose proof (Z.mod_pos_bound (s2 * 1000000000 + n2) 1000000 ltac:(lia)). pose proof (Z.mod_pos_bound (s1 * 1000000000 + n1) 1000000 ltac:(lia)).
  pose proof (Z.div_le_mono _ _ 1000000 ltac:(lia) E). lia.
Qed.
