(** ExOut.v - concrete cases for C48, C49, C61. *)
From Coq Require Import List Arith Bool ZArith QArith Qcanon Sorted Lia String Ascii.
From Verif Require Import Base BaseFacts VOps SpModel RkModel RkSpec StepModel ExtModel UtilModel UtilSpec OutModel OutSpec ExExt.
Import ListNotations.
Local Open Scope nat_scope.
Local Notation length := List.length (only parsing).

(** interval 1/4, start 0; the third call is forced *)
Definition calls1 : list (Qc * bool) := [(qc 1 10, false); (qc 2 10, false); (qc 3 10, true); (qc 4 10, false); (qc 5 10, false); (qc 56 100, false)].
Example C48_decision_example : decide calls1 (th_new (qc 1 4) (qc 0 1)) = [true; false; true; false; false; true] /\ (0 < qc 1 4)%Qc /\ (forall i, i < length calls1 -> (qc 0 1 <= time_of calls1 i)%Qc) /\ monotone calls1.
Proof.
  split; [vm_compute; reflexivity|]. split; [reflexivity|]. split.
  - intros i H. cbn in H. do 6 (destruct i as [|i]; [vm_compute; discriminate|]). lia.
  - intros i j [A B]. cbn in B. do 6 (destruct i as [|i]; [do 6 (destruct j as [|j]; [try lia; vm_compute; discriminate|]); lia|]). lia.
Qed.
Example C48_zero_interval_example : decide calls1 (th_new 0%Qc (qc 0 1)) = repeat true 6.
Proof. vm_compute. reflexivity. Qed.
Definition ts1 : list Qc := [qc 0 1; qc 1 10; qc 2 10; qc 3 10; qc 4 10; qc 5 10; qc 6 10].
Example C48_count_example : decide (plain ts1) (th_new (qc 1 4) (qc 0 1)) = [true; false; false; true; false; false; true] /\ length (select (decide (plain ts1) (th_new (qc 1 4) (qc 0 1))) ts1) = 3 /\
  (forall t, In t ts1 -> (qc 0 1 <= t <= qc 6 10)%Qc).
Proof. split; [vm_compute; reflexivity|]. split; [vm_compute; reflexivity|]. intros t H. cbn in H. repeat (destruct H as [<-|H]; [split; vm_compute; discriminate|]). destruct H. Qed.
(** observations of a run: accepted, rejected, accepted and truncated, accepted *)
Definition post (h : Qc) (a ch tr : bool) : postarg QcNum := mkPost (N:=QcNum) h a ch tr 0%Qc (if tr then Some 1 else None) (if tr then (-1)%Z else 0%Z).
Definition run1 : list obs := [mkObs (qc 1 10) [qc 1 1; qc 2 1] (post (qc 1 10) true false false); mkObs (qc 1 10) [qc 1 1; qc 2 1] (post (qc 1 10) false true false);
  mkObs (qc 3 20) [qc 3 1; qc 4 1] (post (qc 1 10) true false true); mkObs (qc 4 10) [qc 5 1; qc 6 1] (post (qc 1 4) true true false)].
Example C48_general_console_example : map (fun l => (gl_n l, this (gl_t l), gl_accepted l, gl_trunc l, gl_cause l)) (gc_lines (fold_left gcon_after run1 (gcon_new (qc 1 5) (qc 0 1)))) =
  [(1%Z, 1 # 10, true, false, None); (3%Z, 3 # 20, true, true, Some (1%nat, "-"%char)); (4%Z, 2 # 5, true, false, None)]%Q.
Proof. vm_compute. reflexivity. Qed.
Definition rows_of (T : Qc) : option (list (Q * list Q)) := match (s0 <- scon_new T (qc 0 1) [qc 7 1; qc 8 1] [0; 1] ;; scon_run run1 s0) with Ret s => Some (map (fun r => (this (fst r), map this (snd r))) (sc_rows s)) | _ => None end.
Example C48_solution_console_example : rows_of (qc 1 5) = Some [(0, [7; 8]); (1 # 10, [1; 2]); (2 # 5, [5; 6])]%Q.
Proof. vm_compute. reflexivity. Qed.
(** C48.  The initial line of the solution console does not count: the first step is printed however close it is, here 1/10 after it with an interval of 1/5. *)
Theorem C48_initial_line_refuted : ~ (forall T t0 x0 idx l s, (0 < T)%Qc -> (s0 <- scon_new T t0 x0 idx ;; scon_run l s0) = Ret s ->
  forall i, S i < length (sc_rows s) -> (fst (nth i (sc_rows s) (0%Qc, [])) + T <= fst (nth (S i) (sc_rows s) (0%Qc, [])))%Qc).
Proof.
  intros H. destruct (s0 <- scon_new (qc 1 5) (qc 0 1) [qc 7 1; qc 8 1] [0; 1] ;; scon_run run1 s0) as [s| |] eqn:E; [|vm_compute in E; discriminate E|vm_compute in E; discriminate E].
  specialize (H _ _ _ _ _ _ (eq_refl : (0 < qc 1 5)%Qc) E 0). assert (R : rows_of (qc 1 5) = Some (map (fun r => (this (fst r), map this (snd r))) (sc_rows s))) by (unfold rows_of; rewrite E; reflexivity).
  rewrite C48_solution_console_example in R. destruct (sc_rows s) as [|a [|b r]]; try discriminate R. specialize (H ltac:(cbn; lia)). cbn [nth] in H. injection R as A _ B _ _.
  unfold Qcle in H. rewrite this_plus, <- A, <- B in H. vm_compute in H. apply H. reflexivity.
Qed.
Example C48_columns_example : map (fun c => (this (fst c), map this (snd c))) (cc_cols (fold_left (cc_after 10) run1 (cc_new 10 (qc 1 5) (qc 0 1) [qc 7 1; qc 8 1]))) = [(0, [7; 8]); (2 # 5, [5; 6])]%Q /\
  map (fun c => (this (fst c), map this (snd c))) (cc_cols (fold_left (cc_after 2) run1 (cc_new 2 0%Qc (qc 0 1) [qc 7 1; qc 8 1]))) = [(0, [7; 8]); (1 # 10, [1; 2])]%Q.
Proof. split; vm_compute; reflexivity. Qed.
Example C48_table_example : match cc_write 2 [0; 1] (fold_left (cc_after 10) run1 (cc_new 10 (qc 1 5) (qc 0 1) [qc 7 1; qc 8 1])) with Ret (ts, q) => Some (map this ts, map (fun l => (fst l, map this (snd l))) q) | _ => None end =
  Some ([0; 2 # 5]%Q, [(0, "UNNAMED_0"%string, [7; 5]%Q); (1, "UNNAMED_1"%string, [8; 6]%Q)]).
Proof. vm_compute. reflexivity. Qed.

(** C49 *)
Example C49_indices_example : sol_indices 2 13 4 = Some [0; 1; 2; 3; 4; 5; 6; 7; 8; 9; 11; 12] /\ sol_indices 2 9 0 = Some [0; 1; 7; 8] /\ sol_indices 0 9 0 = Some [].
Proof. repeat split. Qed.
Example C49_header_example : sol_header 2 [0; 1; 2; 3; 4] = ["x0"; "x1"; "v0"; "v1"; "z0"]%string.
Proof. reflexivity. Qed.
Example C49_toString_example : toString_items 2 7 = Some [Some 0; Some 1; None; Some 5; Some 6] /\ toString_seps 2 7 = Some [false; true; true; true; true] /\ toString_items 0 7 = Some [None].
Proof. repeat split. Qed.
(** C49.  With a limit of 2^31 the doubled limit is 0: the loop of a group with more members jumps back and never ends, whatever the fuel. *)
Theorem C49_large_limit_refuted : forall L n b : nat, Z.of_nat L = 2147483648%Z -> L < n -> n < 2 * L -> forall fuel i, i <= L -> add_loop fuel L n b i = None.
Proof.
  intros L n b HL HN H2. assert (T : twice L = 0%Z) by (unfold twice; rewrite HL; reflexivity). induction fuel as [|f IH]; intros i I; [reflexivity|]. cbn [add_loop]. rewrite (proj2 (Nat.ltb_lt i n)) by lia. rewrite T.
  rewrite (proj2 (Z.ltb_lt 0 (Z.of_nat n))) by lia. rewrite andb_true_r. destruct (Nat.eqb_spec i L) as [->|NE]; [apply IH; lia|]. rewrite IH by lia. reflexivity.
Qed.

(** C61 *)
Example C61_counters_example : let s := fold_left stat_after run1 stat_new in (st_steps s, st_rej s, st_chg s, st_trunc s, this (st_sum s), this (stat_average s)) = (4%Z, 1%Z, 2%Z, 1%Z, 9 # 20, 3 # 20)%Q.
Proof. vm_compute. reflexivity. Qed.
Definition run2 : list obs := [mkObs (qc 1 10) [] (post (qc 1 10) true false false); mkObs (qc 1 10) [] (post (qc 3 10) false true false); mkObs (qc 3 10) [] (post (qc 2 10) true false false)].
Example C61_elapsed_example : advances (qc 0 1) run2 /\ accepted run2 <> [] /\ this (stat_average (fold_left stat_after run2 stat_new)) = (3 # 20)%Q.
Proof. split; [repeat split; apply Qc_is_canon; vm_compute; reflexivity|]. split; [discriminate|]. vm_compute. reflexivity. Qed.
(** C61.  The extrapolation solver reports the size of the next step: its step from 0 to 1/2 (after a rejected attempt) gives the average 1. *)
Definition xobs (r : xst QcNum (Qc * rkst QcNum bool) Z * list (postarg QcNum) * option (attempt QcNum)) : list obs :=
  let '(s, posts, _) := r in map (fun a => mkObs (if pa_accepted (N:=QcNum) a then x_t s else x_t xstart) (x_x s) a) posts.
Theorem C61_extrapolation_refuted : let l := xobs (x_step (N:=QcNum) euler_ref harmonic no_events (xc 3 false (halving (qc 1 100))) 5 xstart) in
  this (stat_average (fold_left stat_after l stat_new)) = 1%Q /\ this (last_time (qc 0 1) l) = (1 # 2)%Q /\ length (accepted l) = 1.
Proof. vm_compute. repeat split. Qed.
