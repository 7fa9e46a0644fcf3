(** ExDrv.v - concrete cases for C46, C52, C62. *)
From Coq Require Import List Arith Bool ZArith QArith Qcanon Lia String.
From Verif Require Import Base BaseFacts VOps SpModel RkModel RkSpec RkFacts3 RkFacts4 RkFacts5 RkFacts6 UtilModel OutModel OutSpec DrvModel DrvSpec DrvFacts DrvFacts2 ExRk PropRk.
Import ListNotations.
Local Open Scope nat_scope.
Local Notation length := List.length (only parsing).

(** x' = 1 + 2 (t - 0): x = t + t^2 *)
Definition f_lin : unit -> Qc -> list Qc -> Outcome (list Qc) := fun _ => poly_rhs 1 2 (fun _ k => nth k [qc 1 1; qc 2 1] 0%Qc) 0%Qc.
Definition s_start : rkst QcNum unit := rk_set (N:=QcNum) no_events (qc 0 1) [qc 0 1] (mkRk (N:=QcNum) 0%Qc [] None out_empty tt).
Definition showD {W} (r : option (rkst QcNum W * list oevent * Outcome unit)) : option (Q * list Q * list Q) :=
  match r with Some (s, e, Ret _) => Some (this (rk_t s), map this (rk_x s), flat_map (fun x => match x with OBefore k => [(Z.of_nat k # 1)%Q] | OAttempt o => map this (ob_x o) | OAfter k => [(- Z.of_nat k # 1)%Q] end) e) | _ => None end.
(** three steps of 2/5 for a duration of 1: the run ends at 6/5; options 1 and 2 *)
Example C52_run_example : showD (solveOde (rk_solver no_events f_lin tab_euler 1 (qc 2 5)) true [1; 2] (qc 1 1) 10 s_start) = Some ((6 # 5)%Q, [(54 # 25)%Q], [(1 # 1)%Q; (2 # 1)%Q; (2 # 5)%Q; (28 # 25)%Q; (54 # 25)%Q; (-1 # 1)%Q; (-2 # 1)%Q]).
Proof. vm_compute. reflexivity. Qed.
Example C52_cover_example : steps_to_cover (qc 1 1) (qc 2 5) 3 /\ (0 < qc 2 5)%Qc /\ steps_to_cover (qc 0 1) (qc 2 5) 1 /\ steps_to_cover (qc 4 5) (qc 2 5) 2.
Proof. repeat split; try lia; try (vm_compute; discriminate); intros j Hj; do 3 (destruct j as [|j]; [try lia; try (vm_compute; reflexivity)|]); lia. Qed.
Lemma f_lin_good w : good_rhs (N:=QcNum) 1 (f_lin w). Proof. apply poly_good. Qed.
Example C52_steps_example : steps_well (rk_solver no_events f_lin tab_euler 1 (qc 2 5)) (fun s => rk_w s = tt /\ ready 1 1 (qc 2 5) s) (fun d => d = qc 2 5) /\ (rk_w s_start = tt /\ ready 1 1 (qc 2 5) s_start) /\ wf_table tab_euler 1 1 /\ co_last tab_euler = (-1)%Z.
Proof. split; [exact (rk_well f_lin tab_euler 1 1 (qc 2 5) tt wf_euler eq_refl (f_lin_good tt))|]. split; [split; [reflexivity|split; [reflexivity|left; reflexivity]]|]. split; [exact wf_euler|reflexivity]. Qed.
(** C52: the run does not end at the requested time, but up to one step later. *)
Theorem C52_exact_end_refuted : exists s' e, solveOde (rk_solver no_events f_lin tab_euler 1 (qc 2 5)) true [] (qc 1 1) 10 s_start = Some (s', e, Ret tt) /\ rk_t s' <> (rk_t s_start + qc 1 1)%Qc.
Proof.
  set (X := solveOde _ _ _ _ _ _). assert (C : match X with Some (s', _, Ret _) => negb (Qceqb (rk_t s') (rk_t s_start + qc 1 1)%Qc) | _ => false end = true) by (vm_compute; reflexivity).
  destruct X as [[[s' e] [[]| |]]|]; try discriminate C. exists s', e. split; [reflexivity|]. intros H. rewrite H in C. apply negb_true_iff in C. rewrite (proj2 (Qceqb_eq _ _) eq_refl) in C. discriminate C.
Qed.
(** C52: an exception from the right-hand side in the second step: the options are not told that the integration ended. *)
Definition f_throw : unit -> Qc -> list Qc -> Outcome (list Qc) := fun _ t x => if Qcltb (qc 1 4) t then Throw else Ret x.
Theorem C52_after_on_exception_refuted : exists s' e, solveOde (rk_solver no_events f_throw tab_euler 1 (qc 2 5)) true [1; 2] (qc 1 1) 10 s_start = Some (s', e, Throw) /\ befores e = [1; 2] /\ length (seen e) = 1 /\ afters e = [].
Proof.
  set (X := solveOde _ _ _ _ _ _). assert (C : match X with Some (_, e, Throw) => Some (befores e, length (seen e), afters e) | _ => None end = Some ([1; 2], 1, [])) by (vm_compute; reflexivity).
  destruct X as [[[s' e] [[]| |]]|]; try discriminate C. exists s', e. split; [reflexivity|]. assert (A : befores e = [1; 2]) by congruence. assert (B : length (seen e) = 1) by congruence. assert (D : afters e = []) by congruence. split; [exact A|split; [exact B|exact D]].
Qed.
(** C52: a step size of zero *)
Example C52_endless_example : (qc 0 1 <= 0)%Qc /\ (0 < qc 1 1)%Qc /\ solveOde (rk_solver no_events f_lin tab_euler 1 (qc 0 1)) true [] (qc 1 1) 30 s_start = None.
Proof. split; [vm_compute; discriminate|]. split; [reflexivity|vm_compute; reflexivity]. Qed.
(** C52: nothing happens without a right-hand side *)
Example C52_no_rhs : solveOde (rk_solver no_events f_lin tab_euler 1 (qc 2 5)) false [1] (qc 1 1) 10 s_start = Some (s_start, [], Throw). Proof. reflexivity. Qed.

Definition cfg1 : config := mkCfg true true (Some 2) (Some ("specified"%string, qc 1 2, [qc 3 1; qc 4 1])).
Example C62_apply_example : apply_config cfg1 (qc 0 1) [qc 0 1; qc 0 1] = Ret ((qc 1 2, [qc 3 1; qc 4 1]), Some (qc 1 2, [qc 3 1; qc 4 1])). Proof. reflexivity. Qed.
Example C62_default_example : apply_config (mkCfg true false (Some 2) (Some ("sim_dyn_initial"%string, qc 1 2, [qc 3 1]))) (qc 0 1) [qc 7 1; qc 8 1] = Ret ((qc 0 1, [qc 7 1; qc 8 1]), None). Proof. reflexivity. Qed.
Example C62_throw_example : apply_config (mkCfg true true (Some 3) (Some ("specified"%string, qc 1 2, [qc 3 1; qc 4 1]))) (qc 0 1) [] = Throw /\ apply_config (mkCfg false true (Some 3) None) (qc 0 1) [] = Throw. Proof. split; reflexivity. Qed.
(** C62: the size of the given state is not checked. *)
Theorem C62_default_size_refuted : exists c t0 x0 n a b, cf_rhs c = Some n /\ length x0 <> n /\ apply_config c t0 x0 = Ret (a, b) /\ snd a = x0.
Proof. exists (mkCfg true true (Some 2) None), (qc 0 1), [qc 5 1], 2. eexists. eexists. split; [reflexivity|]. split; [discriminate|]. split; reflexivity. Qed.
(** C62: a specified initial state without a right-hand side is undefined behaviour, not an exception. *)
Theorem C62_no_rhs_refuted : exists c, cf_rhs c = None /\ forall t0 x0, apply_config c t0 x0 = UB.
Proof. exists (mkCfg true false None (Some ("specified"%string, qc 1 2, [qc 3 1]))). split; [reflexivity|]. intros. reflexivity. Qed.

(** C46: Euler, order 1, x' = 1 + 2 t from t = 1, x = 5, step 1/2: the exact result is 5 + 1/2 + 5/4, Euler's 5 + 3/2: error 1/4. *)
Definition showE (r : option (Outcome ((Qc * rkst QcNum unit) * estats * list (Qc * list Qc)))) : option (list Q * list Q * Z * list (Q * list Q)) :=
  match r with Some (Ret (_, st, l)) => Some (map this (es_max st), map this (es_sum st), es_n st, map (fun e => (this (fst e), map this (snd e))) l) | _ => None end.
Definition ric_start : Qc * rkst QcNum unit := (qc 0 1, rk_set (N:=QcNum) no_events (qc 1 1) [qc 5 1] s_start).
Example C46_run_example : showE (calculateError (rk_ric no_events f_lin tab_euler 1) 10 1 (qc 1 1) (qc 1 2) (qc 1 1) ric_start) = Some ([(1 # 4)%Q], [(1 # 2)%Q], 2%Z, [((1 # 1)%Q, [(1 # 4)%Q]); ((3 # 2)%Q, [(1 # 4)%Q])]).
Proof. vm_compute. reflexivity. Qed.
Example C46_polynomial_example : wf_table tab_euler 1 1 /\ co_last tab_euler = (-1)%Z /\ order_conditions tab_euler 1 0 1 /\ row_sums tab_euler 1 /\ wf_table tab_rk4 4 1 /\ co_last tab_rk4 = (-1)%Z /\ order_conditions tab_rk4 4 0 4 /\ row_sums tab_rk4 4 /\
  poly_flow 2 (fun _ k => nth k [qc 1 1; qc 2 1] 0%Qc) 0%Qc (qc 1 1) (qc 1 2) 0 = qc 7 4.
Proof. destruct C31_order_euler as [A B]. destruct C31_order_rk4 as [C D]. split; [exact wf_euler|]. split; [reflexivity|]. split; [exact A|]. split; [exact B|]. split; [exact wf_rk4|]. split; [reflexivity|]. split; [exact C|]. split; [exact D|]. apply Qc_is_canon. vm_compute. reflexivity. Qed.
Example C46_exact_example : ric_error 2 [qc 11 4] [qc 5 1] = Ret [(qc (-9) 4 * qc 4 3)%Qc] /\ (qc 5 1 = qc 2 1 + qc 3 1)%Qc /\ (qc 11 4 = qc 2 1 + qc 3 1 / qpow2 2)%Qc /\ (qc (-9) 4 * qc 4 3 = qc 2 1 - qc 5 1)%Qc.
Proof.
  split; [|split; [|split]]; try (apply Qc_is_canon; vm_compute; reflexivity). vm_compute. reflexivity.
Qed.
(** The estimate is not the true error in general: x' = x. *)
Theorem C46_estimate_only_refuted : exists x1 x2 e, ric_error 1 x1 x2 = Ret e /\ (x1 = [(qc 3 2 * qc 3 2)%Qc] /\ x2 = [qc 2 1]) /\ forall y, cmp_ e 0 = (y - cmp_ x2 0)%Qc -> (y < qc 27 10)%Qc.
Proof.
  exists [(qc 3 2 * qc 3 2)%Qc], [qc 2 1]. eexists. split; [reflexivity|]. split; [split; reflexivity|]. intros y E. cbn [cmp_ nth map] in E. assert (Y : y = qc 5 2). { replace y with (y - qc 2 1 + qc 2 1)%Qc by ring. unfold cmp_ in E. cbn [nth] in E. rewrite <- E. apply Qc_is_canon. vm_compute. reflexivity. } rewrite Y. reflexivity.
Qed.
(** C46: after a truncated step the next pass starts at the time t + h from the state at an earlier time.
    x' = 1, x = t; the controller stops the first step that crosses 5/4 there. *)
Definition stop_events : events QcNum bool := mkEvents (N:=QcNum) (fun w : bool => w) (fun _ _ w => Ret w)
  (fun x1 x2 t2 w => if w && Qcltb (qc 5 4) t2 then Ret (false, mkEvres (N:=QcNum) [qc 5 4] (qc 5 4) true (Some 0) 1%Z) else Ret (w, mkEvres (N:=QcNum) x2 t2 false None 0%Z)).
Definition f_one : bool -> Qc -> list Qc -> Outcome (list Qc) := fun _ _ _ => Ret [1%Qc].
Definition showP (r : Outcome ((Qc * rkst QcNum bool) * list Qc * option (list Qc))) : option (list Q * bool) :=
  match r with Ret (_, x1, e) => Some (map this x1, match e with Some _ => true | None => false end) | _ => None end.
Theorem C46_state_after_truncation_refuted : exists s' x1 w, ric_pass (rk_ric stop_events f_one tab_euler 1) 1 (qc 1 1) (qc 1 1) [qc 1 1] (qc 0 1, rk_set (N:=QcNum) stop_events (qc 1 1) [qc 1 1] (mkRk (N:=QcNum) 0%Qc [] None out_empty true)) = Ret (s', x1, w) /\ w = None /\ x1 <> [(qc 1 1 + qc 1 1)%Qc].
Proof.
  set (X := ric_pass _ _ _ _ _ _). assert (C : match X with Ret (_, x1, None) => map this x1 | _ => [] end = [(7 # 4)%Q]) by (vm_compute; reflexivity).
  destruct X as [[[s' x1] [e|]]| |]; try discriminate C. exists s', x1, None. split; [reflexivity|]. split; [reflexivity|]. intros H. rewrite H in C. vm_compute in C. discriminate C.
Qed.
(** C46: a rejected attempt is skipped, a change of the step size throws. *)
Definition ric_toy (a : postarg QcNum) : ricsolver (Qc * Qc) := mkRic (fun _ x s => Ret (fst s, nth 0 x 0%Qc)) (fun h s => (h, snd s)) (fun s => Ret ((fst s, (snd s + fst s)%Qc), [a])) (fun s => [snd s]).
Example C46_samples_example :
  (exists s x, ric_pass (ric_toy (mkPost (N:=QcNum) (qc 1 1) false false false 0%Qc None 0%Z)) 1 (qc 1 1) (qc 0 1) [qc 0 1] (qc 0 1, qc 0 1) = Ret (s, x, None)) /\
  (exists s x e, ric_pass (ric_toy (mkPost (N:=QcNum) (qc 1 1) true false false 0%Qc None 0%Z)) 1 (qc 1 1) (qc 0 1) [qc 0 1] (qc 0 1, qc 0 1) = Ret (s, x, Some e)) /\
  ric_pass (ric_toy (mkPost (N:=QcNum) (qc 1 1) true true false 0%Qc None 0%Z)) 1 (qc 1 1) (qc 0 1) [qc 0 1] (qc 0 1, qc 0 1) = Throw.
Proof. split; [eexists; eexists; vm_compute; reflexivity|]. split; [eexists; eexists; eexists; vm_compute; reflexivity|vm_compute; reflexivity]. Qed.
