(** ExMod.v - concrete cases for PropMod.v. *)
From Coq Require Import List Arith Lia ZArith QArith Qcanon Bool.
From Verif Require Import Base BaseFacts SpModel VecModel VOps MapModel LUModel NewtModel NewtSpec RkModel RkSpec RkFacts6 EvModel ImpModel ImpSpec ModModel ModSpec PropMod.
Import ListNotations.
Local Open Scope nat_scope.
Definition q (z : Z) : Qc := Q2Qc (inject_Z z).
(** a new solver, a new ball *)
Definition b0 : bstate := mkRk (N:=QcNum) 0%Qc [] None out_empty (ctl_new, false).
Definition bshow (r : Outcome (bstate * list (postarg QcNum))) : Outcome (Q * list Q * bool) :=
  match r with Ret (s, _) => Ret (this (rk_t s), map this (rk_x s), snd (rk_w s)) | Throw => Throw | UB => UB end.
Definition fall (b : ball QcNum) co h y v count := bshow (ball_steps b co h count (ball_start b 0%Qc [y; v] b0)).
Definition ball1 : ball QcNum := mkBall (N:=QcNum) (q 2) (qc 1 2) (qc 1 100).
Example C63_conditions : wf_table tab_rk4 4 1 /\ shortcut_ok tab_rk4 4 /\ order_two tab_rk4 4 /\ ~ stuck b0 /\ (0 <= b_r ball1)%Qc /\ (b_r ball1 < 1)%Qc /\ (b_r ball1 * b_r ball1 <= 1)%Qc.
Proof.
  split; [exact wf_rk4|]. split; [left; reflexivity|]. split; [split; [intros t Ht; apply ord_rk4; lia|exact rows_rk4]|].
  split; [discriminate|]. split; [discriminate|]. split; [reflexivity|]. discriminate.
Qed.
(** Dropped from height 2: one full step, then the impact on the way from 1 to -2, then up again. *)
Example C63_one_step : fall ball1 tab_rk4 (q 1) (q 2) 0%Qc 1 = Ret (1%Q, [1%Q; (-2)%Q], false).
Proof. vm_compute. reflexivity. Qed.
Example C63_impact : fall ball1 tab_rk4 (q 1) (q 2) 0%Qc 2 = Ret ((4 # 3)%Q, [0%Q; (4 # 3)%Q], false).
Proof. vm_compute. reflexivity. Qed.
Example C63_bounced : fall ball1 tab_rk4 (q 1) (q 2) 0%Qc 3 = Ret ((7 # 3)%Q, [(1 # 3)%Q; (- 2 # 3)%Q], false).
Proof. vm_compute. reflexivity. Qed.
Example C64_at_rest : fall ball1 tab_rk4 (q 1) (q 2) 0%Qc 5 = Ret ((38 # 15)%Q, [0%Q; 0%Q], true).
Proof. vm_compute. reflexivity. Qed.
(** ball1 (recovery one half, sticking speed 1/100) bounces off at speed 2 and stops at speed 1/200. *)
Example C64_impact_case : ball_switch ball1 false [1%Z] 0%Qc [0%Qc; (- q 2)%Qc] = Ret (false, [0%Qc; q 1]) /\
  ball_switch ball1 false [1%Z] 0%Qc [qc 1 7; (- qc 1 200)%Qc] = Ret (true, [0%Qc; 0%Qc]).
Proof.
  split.
  - destruct (C64_impact ball1 false [1%Z] 0%Qc 0%Qc (- q 2)%Qc) as [H _]. rewrite H by (reflexivity || discriminate). reflexivity.
  - destruct (C64_impact ball1 false [1%Z] 0%Qc (qc 1 7) (- qc 1 200)%Qc) as (_ & H & _). apply H; reflexivity.
Qed.
(** The parabola 2 - t^2 is nowhere zero at a whole t: C63_no_failure and C64_rests apply to this ball. *)
Example C64_rests_case : forall k, 0 < k -> free_height (b_g ball1) (q 2) 0 (q 1) k <> 0%Qc.
Proof.
  assert (QN : forall k, qn k = q (Z.of_nat k)) by reflexivity.
  intros k Hk E. unfold free_height in E. cbn [b_g ball1] in E. rewrite QN in E.
  assert (D : (q 2 + 0 * (q (Z.of_nat k) * q 1) - q 2 * (q (Z.of_nat k) * q 1) * (q (Z.of_nat k) * q 1) / qc 2 1 = q (2 - Z.of_nat k * Z.of_nat k))%Qc).
  { assert (M : forall a c : Z, (q a * q c = q (a * c))%Qc) by (intros; apply Qc_is_canon; unfold q; cbn -[Qmult Qred inject_Z Z.mul]; rewrite !Qred_correct, inject_Z_mult; reflexivity).
    assert (S : forall a c : Z, (q a - q c = q (a - c))%Qc) by (intros; apply Qc_is_canon; unfold q, Qcminus; cbn -[Qplus Qopp Qred inject_Z Z.sub]; rewrite !Qred_correct; unfold Z.sub; rewrite inject_Z_plus, inject_Z_opp; reflexivity).
    rewrite <- S, <- M. assert (Q1 : q 1 = 1%Qc) by (apply Qc_is_canon; reflexivity). assert (Q2 : q 2 = (1 + 1)%Qc) by (apply Qc_is_canon; reflexivity). assert (Q3 : qc 2 1 = (1 + 1)%Qc) by (apply Qc_is_canon; reflexivity).
    rewrite Q1, Q2, Q3. field. discriminate. }
  rewrite D in E. apply (f_equal this) in E. change (Qred (inject_Z (2 - Z.of_nat k * Z.of_nat k)) = 0%Q) in E. assert (F : (inject_Z (2 - Z.of_nat k * Z.of_nat k) == 0)%Q) by (rewrite <- (Qred_correct (inject_Z _)), E; reflexivity).
  unfold Qeq in F. cbn -[Z.mul Z.sub Z.of_nat] in F. rewrite Z.mul_1_r in F. destruct k as [|[|k]]; [lia|discriminate F|]. assert (2 <= Z.of_nat (S (S k)))%Z by lia. generalize dependent (Z.of_nat (S (S k))). intros; nia.
Qed.
(** The flight of two thirds after the first impact is free flight from the plane: C63_free_flight and C63_from_plane. *)
Example C63_free_flight_case : forall k, 0 < k <= 1 -> (0 < free_height (b_g ball1) 0 (qc 4 3) (q 1) k)%Qc.
Proof. intros [|[|k]] H; [lia| |lia]. vm_compute. reflexivity. Qed.
(** A ball dropped from height 1 is on the plane at time 1: the solver fails in this step. *)
Example C63_exact_landing_case : fall ball1 tab_rk4 (q 1) (q 1) 0%Qc 1 = Throw /\ free_height (b_g ball1) (q 1) 0 (q 1) 1 = 0%Qc.
Proof. split; [vm_compute; reflexivity|]. apply Qc_is_canon. reflexivity. Qed.
Theorem C63_never_fails_refuted : ~ (forall (b : ball QcNum) (co : coeffs QcNum) stages h, wf_table co stages 1 -> shortcut_ok co stages -> (0 < h)%Qc -> (0 <= b_r b)%Qc ->
  forall t0 y0 v0 (s0 : bstate) count, (0 <= y0)%Qc -> ball_steps b co h count (ball_start b t0 [y0; v0] s0) <> Throw).
Proof.
  intros H. refine (H ball1 tab_rk4 4 (q 1) wf_rk4 (or_introl eq_refl) eq_refl _ 0%Qc (q 1) 0%Qc b0 1 _ _); try discriminate.
  destruct C63_exact_landing_case as [E _]. unfold fall, bshow in E. destruct (ball_steps _ _ _ _ _) as [[? ?]| |]; try discriminate E. reflexivity.
Qed.
(** The Euler method, of first order, gives a falling ball energy: 3 instead of 2 after one step. *)
Theorem C63_euler_energy_refuted : ~ (forall (b : ball QcNum) (co : coeffs QcNum) stages h, wf_table co stages 1 -> shortcut_ok co stages ->
  forall t0 y0 v0 (s0 : bstate) count s' posts, (b_r b * b_r b <= 1)%Qc -> (0 <= y0)%Qc ->
  ball_steps b co h count (ball_start b t0 [y0; v0] s0) = Ret (s', posts) -> (energy (b_g b) s' <= v0 * v0 + qc 2 1 * b_g b * y0)%Qc).
Proof.
  intros H. specialize (H (mkBall (N:=QcNum) (q 1) (qc 1 2) 0%Qc) tab_euler 1 (q 1) wf_euler (or_introl eq_refl) 0%Qc (q 1) 0%Qc b0 1).
  set (r := ball_steps _ tab_euler _ 1 _) in H. assert (C : match r with Ret (s, _) => Some (this (energy (q 1) s)) | _ => None end = Some 3%Q) by (vm_compute; reflexivity).
  destruct r as [[s' ps]| |]; try discriminate C. apply (f_equal (fun o => match o with Some v => v | None => 0%Q end)) in C. cbv beta iota in C. specialize (H s' ps ltac:(discriminate) ltac:(discriminate) eq_refl).
  assert (E : energy (q 1) s' = q 3) by (apply Qc_is_canon; rewrite C; reflexivity). cbn [b_g] in H. rewrite E in H. vm_compute in H. apply H. reflexivity.
Qed.
(** A negative recovery factor lets the ball meet the plane again and again without time going on. *)
Theorem C63_time_negative_refuted : ~ (forall (b : ball QcNum) (co : coeffs QcNum) stages h, wf_table co stages 1 -> shortcut_ok co stages -> (0 < h)%Qc ->
  forall t0 y0 v0 (s0 : bstate) count s' posts, (0 <= y0)%Qc -> ball_steps b co h count (ball_start b t0 [y0; v0] s0) = Ret (s', posts) ->
  (qn count * h <= qc 2 1 * (rk_t s' - t0) + qc 2 1 * h)%Qc).
Proof.
  intros H. specialize (H (mkBall (N:=QcNum) (q 2) (q (-1)) (qc 1 100)) tab_rk4 4 (q 1) wf_rk4 (or_introl eq_refl) eq_refl 0%Qc 0%Qc (q (-1)) b0 3).
  set (r := ball_steps _ tab_rk4 _ 3 _) in H. assert (C : match r with Ret (s, _) => Some (this (rk_t s)) | _ => None end = Some 0%Q) by (vm_compute; reflexivity).
  destruct r as [[s' ps]| |]; try discriminate C. apply (f_equal (fun o => match o with Some v => v | None => 0%Q end)) in C. cbv beta iota in C. specialize (H s' ps ltac:(discriminate) eq_refl).
  assert (E : (rk_t s' : Qc) = 0%Qc) by (apply Qc_is_canon; rewrite C; reflexivity). rewrite E in H. vm_compute in H. apply H. reflexivity.
Qed.
(** With recovery factor 1 the ball does not come to rest: the same state as after one step, three steps later. *)
Example C64_elastic : fall (mkBall (N:=QcNum) (q 1) (q 1) 0%Qc) tab_rk4 (q 1) 0%Qc (q 1) 3 = Ret (2%Q, [0%Q; 1%Q], false).
Proof. vm_compute. reflexivity. Qed.
(** The ball that came to rest is put to height 2 again and hangs there, its speed -1. *)
Example C64_hangs : match ball_steps ball1 tab_rk4 (q 1) 5 (ball_start ball1 0%Qc [q 2; 0%Qc] b0) with
  | Ret (s, _) => bshow (ball_steps ball1 tab_rk4 (q 1) 4 (ball_start ball1 0%Qc [q 2; q (-1)] s)) | _ => Throw end = Ret (4%Q, [2%Q; (-1)%Q], true).
Proof. vm_compute. reflexivity. Qed.
Theorem C64_restart_refuted : ~ (forall (b : ball QcNum) (co : coeffs QcNum) stages h, wf_table co stages 1 -> shortcut_ok co stages ->
  forall t0 y0 v0 (s0 : bstate) count, order_two co stages -> (0 <= y0)%Qc -> (forall k, 0 < k <= count -> (0 < free_height (b_g b) y0 v0 h k)%Qc) ->
  exists s' posts, ball_steps b co h count (ball_start b t0 [y0; v0] s0) = Ret (s', posts) /\ height s' = free_height (b_g b) y0 v0 h count).
Proof.
  intros H. destruct C63_conditions as (WF & SC & OT & _).
  destruct (H ball1 tab_rk4 4 (q 1) WF SC 0%Qc (q 2) 0%Qc (mkRk (N:=QcNum) 0%Qc [] None out_empty (ctl_new, true)) 1 OT) as (s' & ps & E & X).
  - discriminate.
  - intros [|[|k]] Hk; [lia| |lia]. reflexivity.
  - destruct (C64_restart_hangs ball1 tab_rk4 4 (q 1) WF SC 0%Qc (q 2) 0%Qc (mkRk (N:=QcNum) 0%Qc [] None out_empty (ctl_new, true)) 1 eq_refl) as (s2 & p2 & E2 & X2 & _); [discriminate|].
    rewrite E in E2. injection E2 as <- <-. unfold height in X. rewrite X2 in X. apply (f_equal this) in X. vm_compute in X. discriminate X.
Qed.

(** The chain of three masses *)
Example C65_case : match cpl_rhs (N:=QcNum) 3 (q 2) (q 1) (q 5) 0%Qc [q 1; q 3; q 2; q 7; q 8; q 9] with Ret y => map this y | _ => [] end = [7; 8; 9; 9; -15; 8]%Q.
Proof. vm_compute. reflexivity. Qed.
Example C65_energy_case : this (chain_energy 3 (q 2) (q 1) (q 5) [q 1; q 3; q 2; q 7; q 8; q 9]) = (195 # 2)%Q.
Proof. vm_compute. reflexivity. Qed.
(** The chain of one mass is the oscillator plus a cubic term. *)
Example C65_one : match cpl_rhs (N:=QcNum) 1 (q 2) 0%Qc (q 5) 0%Qc [q 1; q 3] with Ret y => map this y | _ => [] end = [3; 3]%Q /\
  match osc_rhs (N:=QcNum) (q 2) (q 5) 0%Qc [q 1; q 3] with Ret y => map this y | _ => [] end = [3; 3]%Q.
Proof. split; vm_compute; reflexivity. Qed.

(** The oscillator x'' = 5 - 2 x *)
Definition s0 : rkst QcNum unit := mkRk (N:=QcNum) 0%Qc [] None out_empty tt.
Definition oshow (r : Outcome (rkst QcNum unit * list (postarg QcNum))) := match r with Ret (s, _) => Some (map this (rk_x s), this (osc_energy (q 2) (q 5) (rk_x s))) | _ => None end.
Example C66_euler_case : oshow (rk_steps (N:=QcNum) no_events (fun _ => osc_rhs (N:=QcNum) (q 2) (q 5)) tab_euler 2 (qc 1 2) 2 (rk_set (N:=QcNum) no_events 0%Qc [q 1; q 1] s0)) =
  Some ([(11 # 4)%Q; (7 # 2)%Q], (99 # 4)%Q) /\ this (osc_energy (q 2) (q 5) [q 1; q 1]) = 11%Q.
Proof. split; vm_compute; reflexivity. Qed.
Example C66_rk4_case : oshow (rk_steps (N:=QcNum) no_events (fun _ => osc_rhs (N:=QcNum) (q 2) (q 5)) tab_rk4 2 (q 1) 1 (rk_set (N:=QcNum) no_events 0%Qc [q 1; q 1] s0)) =
  Some ([(35 # 12)%Q; (13 # 6)%Q], (121 # 12)%Q) .
Proof. vm_compute. reflexivity. Qed.
Definition lit0 : ls_lit QcNum := mkLit (N:=QcNum) (qc 1 10000) (qc 1 2) (q (-1)).
Definition est0 : sest QcNum := mkEst (N:=QcNum) (qc 1 1000) (qc 1 1000) (q 0) (q 0) [] 0%Qc 0%Qc.
Definition perf0 : perf QcNum (S:=LUModel.lu) := mkPerf (N:=QcNum) [] [] false 0%Qc est0 lu_empty.
Definition c2 : icfg QcNum bool unit := mkIcfg (N:=QcNum) (q 1) 1 0 (fun _ => osc_rhs (N:=QcNum) (q 2) (q 5)) (fun _ _ w => Ret w) None None 1.
Definition i0 (al : Qc) (x : list Qc) : ist QcNum bool unit (perf QcNum (S:=LUModel.lu)) :=
  i_set (N:=QcNum) 0%Qc x false (mkI (N:=QcNum) (mkEM (N:=QcNum) al 0%Qc 0%Qc [] [] false) false perf0 tt true).
Definition nw2 := plain_newton (N:=QcNum) (simple_dd (qc 1 100) None) lit0 3 10.
Definition ishow (o : option (ist QcNum bool unit (perf QcNum (S:=LUModel.lu)))) : option (Q * list Q) := option_map (fun s : ist QcNum bool unit (perf QcNum (S:=LUModel.lu)) => (this (em_t (i_map s)), map this (em_x (i_map s)))) o.
Example C66_conditions : fresh_start c2 (i0 (qc 1 2) [q 1; q 1]) /\ (1 + q 2 * (ic_h c2 * qc 1 2 * (ic_h c2 * qc 1 2)) <> 0)%Qc /\ (l_eta lit0 <= 1)%Qc /\ qc 1 100 <> 0%Qc.
Proof.
  split. { split; [reflexivity|]. split; [reflexivity|]. split; [vm_compute; discriminate|]. split; [vm_compute; discriminate|]. apply Qcle_refl. }
  split; [vm_compute; discriminate|]. split; vm_compute; discriminate.
Qed.
(** two steps of the implicit method with al = 1/2: the energy is 11 as at the beginning; with al = 1 it is 11 / 9 *)
Definition eshow (o : option (ist QcNum bool unit (perf QcNum (S:=LUModel.lu)))) : option Q := option_map (fun s : ist QcNum bool unit (perf QcNum (S:=LUModel.lu)) => this (osc_energy (q 2) (q 5) (em_x (i_map s)))) o.
Example C66_conserves_case : eshow (i_steps no_events nw2 c2 2 (i0 (qc 1 2) [q 1; q 1])) = Some 11%Q /\ eshow (i_steps no_events nw2 c2 2 (i0 1%Qc [q 1; q 1])) = Some (11 # 9)%Q.
Proof. split; vm_compute; reflexivity. Qed.

(** The stiff equation with a = 100 and t -> 1 - t^2 / 2 for the cosine; the step 1 is far too large for the Euler method. *)
Definition cosq (t : Qc) : Qc := (1 - t * t / q 2)%Qc.
Definition xshow (r : Outcome (rkst QcNum unit * list (postarg QcNum))) := match r with Ret (s, _) => map this (rk_x s) | _ => [] end.
Example C67_euler_case :
  xshow (rk_steps (N:=QcNum) no_events (fun _ => stiff_rhs (N:=QcNum) cosq (q 100)) tab_euler 1 (q 1) 2 (rk_set (N:=QcNum) no_events 0%Qc [q 1] s0)) = [(-49)%Q] /\
  xshow (rk_steps (N:=QcNum) no_events (fun _ => stiff_rhs (N:=QcNum) cosq (q 100)) tab_euler 1 (q 1) 2 (rk_set (N:=QcNum) no_events 0%Qc [q 2] s0)) = [9752%Q].
Proof. split; vm_compute; reflexivity. Qed.
Definition c1 : icfg QcNum bool unit := mkIcfg (N:=QcNum) (q 1) 0 1 (fun _ => stiff_rhs (N:=QcNum) cosq (q 100)) (fun _ _ w => Ret w) None None 1.
Example C67_conditions : fresh_start c1 (i0 1%Qc [q 1]) /\ fresh_start c1 (i0 1%Qc [q 2]) /\ (0 <= ic_h c1 * q 100)%Qc.
Proof. split; [|split; [|vm_compute; discriminate]]; (split; [reflexivity|]; split; [reflexivity|]; split; [vm_compute; discriminate|]; split; [vm_compute; discriminate|]; apply Qcle_refl). Qed.
Example C67_implicit_case : ishow (i_steps no_events nw2 c1 1 (i0 1%Qc [q 1])) = Some (1%Q, [(51 # 101)%Q]) /\ ishow (i_steps no_events nw2 c1 1 (i0 1%Qc [q 2])) = Some (1%Q, [(52 # 101)%Q]).
Proof. split; vm_compute; reflexivity. Qed.
