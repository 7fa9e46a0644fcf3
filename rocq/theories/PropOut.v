(** PropOut.v - C48, C49, C61: output of the integration. *)
From Coq Require Import List Arith Bool ZArith QArith Qcanon Sorted.
From Verif Require Import Base SpModel RkModel UtilModel UtilSpec OutModel OutSpec OutFacts OutFacts2.
Import ListNotations.
Local Open Scope nat_scope.

(** C48.  With an interval T > 0 and times not before the start: a call is printed exactly when it is forced or the last printed call is at least T earlier (or there is none). *)
Theorem C48_decision : forall (T start : Qc) (calls : list (Qc * bool)) (j : nat), (0 < T)%Qc -> (forall i, i < length calls -> (start <= time_of calls i)%Qc) -> j < length calls ->
  (printed (decide calls (th_new T start)) j <-> forced calls j = true \/ forall i, last_before (decide calls (th_new T start)) i j -> (time_of calls i + T <= time_of calls j)%Qc).
Proof. exact decision. Qed.
Print Assumptions C48_decision.
(** C48.  With an interval of zero (or less) every call is printed. *)
Theorem C48_zero_interval : forall (T start : Qc) (calls : list (Qc * bool)) (j : nat), (T <= 0)%Qc -> j < length calls -> printed (decide calls (th_new T start)) j.
Proof. exact all_printed. Qed.
Print Assumptions C48_zero_interval.
(** C48.  Two printed calls, the later one not forced, are at least T apart. *)
Theorem C48_spacing : forall (T start : Qc) (calls : list (Qc * bool)) (i j : nat), (0 < T)%Qc -> (forall k, k < length calls -> (start <= time_of calls k)%Qc) -> monotone calls -> i < j < length calls ->
  printed (decide calls (th_new T start)) i -> printed (decide calls (th_new T start)) j -> forced calls j = false -> (time_of calls i + T <= time_of calls j)%Qc.
Proof. exact spacing. Qed.
Print Assumptions C48_spacing.
(** C48.  Nothing is left out for long: up to the next call no more than T plus one step passes after a printed call. *)
Theorem C48_gap : forall (T start : Qc) (calls : list (Qc * bool)) (i j : nat) (H : Qc), (0 < T)%Qc -> (forall k, k < length calls -> (start <= time_of calls k)%Qc) ->
  (forall k, S k < length calls -> (time_of calls (S k) <= time_of calls k + H)%Qc) -> last_before (decide calls (th_new T start)) i j -> j < length calls ->
  (time_of calls j < time_of calls i + T + H)%Qc.
Proof. exact gap. Qed.
Print Assumptions C48_gap.
(** C48.  At most (b - start)/T + 1 unforced lines are printed up to the time b. *)
Theorem C48_count : forall (T start : Qc) (ts : list Qc) (b : Qc), (0 < T)%Qc -> (forall i j, i <= j < length ts -> (nth i ts 0 <= nth j ts 0)%Qc) -> (forall t, In t ts -> (start <= t <= b)%Qc) -> ts <> [] ->
  (natQ (length (select (decide (plain ts) (th_new T start)) ts)) * T <= b - start + T)%Qc.
Proof. exact count. Qed.
Print Assumptions C48_count.
(** C48.  The general console prints the selected attempts, numbered from 1, truncated steps being forced. *)
Theorem C48_general_console : forall (T t0 : Qc) (l : list obs), (Z.of_nat (length l) < 4294967296)%Z ->
  gc_lines (fold_left gcon_after l (gcon_new T t0)) = map (fun p => line_of (fst p) (snd p)) (select (decide (map (fun o => (ob_t o, pa_trunc (ob_a o))) l) (th_new T t0)) (numbered 1 l)).
Proof. exact gcon_ok. Qed.
Print Assumptions C48_general_console.
(** C48.  The solution console prints the initial state and then the selected accepted steps. *)
Theorem C48_solution_console : forall (T t0 : Qc) (x0 : list Qc) (idx : list nat) (l : list obs), (forall i, In i idx -> i < length x0) -> (forall o, In o l -> forall i, In i idx -> i < length (ob_x o)) ->
  exists s, (s0 <- scon_new T t0 x0 idx ;; scon_run l s0) = Ret s /\
    sc_rows s = (t0, map (fun i => nth i x0 0%Qc) idx) :: map (fun o => (ob_t o, map (fun i => nth i (ob_x o) 0%Qc) idx)) (select (decide (plain (map ob_t (accepted l))) (th_new T t0)) (accepted l)).
Proof. exact scon_ok. Qed.
Print Assumptions C48_solution_console.
(** C48.  The columns are the first max_steps of the selected ones among the initial state and the accepted steps. *)
Theorem C48_columns : forall (mx : nat) (T t0 : Qc) (x0 : list Qc) (l : list obs), let all := (t0, x0) :: map (fun o => (ob_t o, ob_x o)) (accepted l) in
  cc_cols (fold_left (cc_after mx) l (cc_new mx T t0 x0)) = firstn mx (select (decide (plain (map fst all)) (th_new T t0)) all).
Proof. exact cc_ok. Qed.
Print Assumptions C48_columns.
(** C48.  The table written at the end has one line per variable, with its index, its name and its values in the columns. *)
Theorem C48_table : forall (n : nat) (ids : list nat) (s : ccon), (Z.of_nat n <= 2147483648)%Z -> length ids = n -> (forall c, In c (cc_cols s) -> length (snd c) = n) ->
  exists q, cc_write n ids s = Ret (map fst (cc_cols s), q) /\ map (fun l => fst (fst l)) q = seq 0 n /\ map snd q = map (fun i => map (fun c => nth i (snd c) 0%Qc) (cc_cols s)) (seq 0 n) /\
    forall l, In l q -> varNameByIndex (Z.of_nat n) ids (fst (fst l)) = Ret (snd (fst l)).
Proof. exact cc_write_ok. Qed.
Print Assumptions C48_table.

(** C49.  The printed indices of the groups: all, or the first and the last L ones. *)
Theorem C49_indices : forall L n n2 : nat, (Z.of_nat L < 2147483648)%Z -> 2 * n2 <= n ->
  sol_indices L n n2 = Some (if n2 =? 0 then abbreviated L 0 n else abbreviated L 0 n2 ++ abbreviated L n2 n2 ++ abbreviated L (2 * n2) (n - 2 * n2)).
Proof. exact sol_ok. Qed.
Print Assumptions C49_indices.
(** C49.  What an abbreviated group of n numbers from b contains, and how many. *)
Theorem C49_members : forall L b n i : nat, In i (abbreviated L b n) <-> b <= i < b + n /\ (n <= 2 * L \/ i < b + L \/ b + n <= i + L).
Proof. exact abbr_in. Qed.
Print Assumptions C49_members.
Theorem C49_size : forall L b n : nat, length (abbreviated L b n) = Nat.min n (2 * L).
Proof. exact abbr_len. Qed.
Print Assumptions C49_size.
(** C49.  The indices are strictly increasing and below the variable count. *)
Theorem C49_increasing : forall (L n n2 : nat) (idx : list nat), (Z.of_nat L < 2147483648)%Z -> 2 * n2 <= n -> sol_indices L n n2 = Some idx -> StronglySorted lt idx /\ (forall i, In i idx -> i < n).
Proof. exact sol_sorted. Qed.
Print Assumptions C49_increasing.
(** C49.  The column names are all different. *)
Theorem C49_header : forall (L n n2 : nat) (idx : list nat), (Z.of_nat L < 2147483648)%Z -> (Z.of_nat n <= 2147483647)%Z -> 2 * n2 <= n -> sol_indices L n n2 = Some idx ->
  NoDup (sol_header n2 idx) /\ length (sol_header n2 idx) = length idx.
Proof. exact header_ok. Qed.
Print Assumptions C49_header.
(** C49.  A vector as text: all elements, or the first L, "...", the last L; a separator before every item but the first. *)
Theorem C49_toString : forall L n : nat, (Z.of_nat L < 2147483648)%Z -> exists items, toString_items L n = Some items /\
  items = (if n <=? 2 * L then map Some (seq 0 n) else map Some (seq 0 L) ++ None :: map Some (seq (n - L) L)) /\
  toString_seps L n = Some (match length items with 0 => [] | S m => false :: repeat true m end).
Proof. exact ts_ok. Qed.
Print Assumptions C49_toString.
(** C49.  A limit not below the size (such as the default, the largest unsigned) shows everything. *)
Theorem C49_toString_whole : forall L n : nat, n <= L -> toString_items L n = Some (map Some (seq 0 n)).
Proof. exact ts_default. Qed.
Print Assumptions C49_toString_whole.

(** C61.  The step statistics: attempts, rejected, size changed, truncated, and the sum of the accepted step sizes. *)
Theorem C61_counters : forall l : list obs, (Z.of_nat (length l) < 4294967296)%Z -> fold_left stat_after l stat_new =
  mkStat (Z.of_nat (length l)) (number (fun o => negb (pa_accepted (ob_a o))) l) (number (fun o => pa_changed (ob_a o)) l) (number (fun o => pa_trunc (ob_a o)) l) (sum_h (accepted l)).
Proof. exact stat_ok. Qed.
Print Assumptions C61_counters.
(** C61.  The average step size is the mean of the accepted step sizes. *)
Theorem C61_average : forall l : list obs, (Z.of_nat (length l) < 4294967296)%Z -> stat_average (fold_left stat_after l stat_new) = (sum_h (accepted l) / natQ (length (accepted l)))%Qc.
Proof. exact stat_avg. Qed.
Print Assumptions C61_average.
(** C61.  When accepted steps move the time by the size they report, the average times their number is the time passed. *)
Theorem C61_elapsed : forall (t0 : Qc) (l : list obs), (Z.of_nat (length l) < 4294967296)%Z -> advances t0 l -> accepted l <> [] ->
  (stat_average (fold_left stat_after l stat_new) * natQ (length (accepted l)) = last_time t0 l - t0)%Qc.
Proof. exact adv_avg. Qed.
Print Assumptions C61_elapsed.
