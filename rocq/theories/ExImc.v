(** ExImc.v - examples and a refutation for C78. *)
From Coq Require Import List Arith Bool ZArith QArith Qcanon Lia Lra Permutation Reals.
From Verif Require Import Base BaseFacts VecModel VOps MapModel LUModel NewtModel NewtSpec NewtFacts2 RkModel RkSpec StepModel StepSpec ExtModel ImpModel ImpSpec ImpFacts ImpFacts4 ExImp ConvSpec ConvFacts ConvFacts5 HighSpec HighFacts5 ImcSpec ImcFacts ImcFacts3 PropImp PropImc.
Import ListNotations.
Local Open Scope R_scope.

(** * A stiff equation: x' = -k (x - t) + 1, which the line x = t solves; all other solutions are drawn to the line at rate k. *)
Definition drawn (k : Qc) (w : bool) (t : Qc) (x : list Qc) : Outcome (list Qc) := match x with [u] => Ret [(- k * (u - t) + 1)%Qc] | _ => Throw end.
Definition drawnR (k : Qc) (t : R) (x : list R) : list R := match x with [u] => [- q2r k * (u - t) + 1] | _ => [] end.
Definition line (t : R) : list R := [t].
Lemma drawn_computes k w : computes_rhs 1 (drawn k w) (drawnR k).
Proof.
  intros t x L. destruct x as [|u [|? x]]; try discriminate L. eexists. split; [reflexivity|]. split; [reflexivity|]. unfold toR, drawnR. cbn [map].
  f_equal. unfold Qcminus. rewrite !q2r_plus, q2r_mult, !q2r_plus, !q2r_opp, q2r_1. ring.
Qed.
Lemma drawn_one_sided k : one_sided 1 (- q2r k) (drawnR k).
Proof.
  intros t x y Lx Ly. destruct x as [|u [|? x]]; try discriminate Lx. destruct y as [|v [|? y]]; try discriminate Ly. cbn [rsum drawnR]. unfold cmpR. cbn [nth]. lra.
Qed.
Lemma drawn_lipschitz k : (0 <= q2r k) -> lipschitz_x 1 (q2r k) (drawnR k).
Proof.
  intros K t x y d Lx Ly H. destruct x as [|u [|? x]]; try discriminate Lx. destruct y as [|v [|? y]]; try discriminate Ly.
  intros [|j] Hj; [|lia]. specialize (H 0%nat Hj). unfold cmpR in *. cbn [nth drawnR] in *.
  replace (- q2r k * (u - t) + 1 - (- q2r k * (v - t) + 1)) with (- (q2r k * (u - v))) by ring. rewrite Rabs_Ropp, Rabs_mult, (Rabs_right (q2r k)) by lra.
  apply Rmult_le_compat_l; assumption.
Qed.
Lemma drawn_slope k t j : (j < 1)%nat -> cmpR (drawnR k t (line t)) j = 1.
Proof. intros Hj. assert (j = 0)%nat by lia. subst. unfold cmpR, drawnR, line. cbn [nth]. ring. Qed.
Lemma line_solves k t0 t1 : solves 1 (drawnR k) line t0 t1.
Proof.
  intros t Ht. split; [reflexivity|]. intros j Hj. rewrite drawn_slope by exact Hj. assert (j = 0)%nat by lia. subst. apply derivable_pt_lim_id.
Qed.
Lemma line_slope k t0 t1 : slope_changes 1 (drawnR k) line t0 t1 0.
Proof. intros s t j _ _ Hj. rewrite !drawn_slope by exact Hj. rewrite Rminus_diag_eq, Rabs_R0 by reflexivity. lra. Qed.
Lemma line_curvature k t0 t1 : curvature_changes 1 (drawnR k) line (fun _ _ => 0) t0 t1 0.
Proof.
  split.
  - intros t j _ Hj. assert (j = 0)%nat by lia. subst. intros eps He. exists (mkposreal 1 Rlt_0_1). intros e Ne _. rewrite !drawn_slope by lia.
    replace ((1 - 1) / e - 0) with 0 by (field; exact Ne). rewrite Rabs_R0. exact He.
  - intros s t j _ _ _. rewrite Rminus_diag_eq, Rabs_R0 by reflexivity. lra.
Qed.
(** The run: one first order equation, step size h. *)
Definition cl (k h : Qc) : icfg QcNum bool unit := mkIcfg (N:=QcNum) h 0 1 (drawn k) (fun _ _ w => Ret w) None None 1.
Definition sl (al : Qc) : ist QcNum bool unit (perf QcNum (S:=LUModel.lu)) := mkI (N:=QcNum) (mkEM (N:=QcNum) al 0%Qc 0%Qc [] [] false) true perf0 tt true.
Lemma drawn_linear k w : linear_rhs 1 (fun _ _ => - k)%Qc (fun t _ => k * t + 1)%Qc (drawn k w).
Proof.
  intros t x L. destruct x as [|u [|? x]]; try discriminate L. eexists. split; [reflexivity|]. split; [reflexivity|].
  intros [|j] Hj; [|lia]. cbn [qsum]. unfold cmp_. cbn [nth]. ring.
Qed.
Lemma run_exists k h al x0 count : (1 + h * al * k)%Qc <> 0%Qc -> exists s', i_steps (N:=QcNum) no_events nw2 (cl k h) count (i_set (N:=QcNum) 0%Qc [x0] false (sl al)) = Some s'.
Proof.
  intros NZ. destruct (C41_linear_run bool unit (cl k h) (fun _ _ => - k)%Qc (fun _ t _ => k * t + 1)%Qc dx0 lit0 3 10) with (count := count) (s := i_set (N:=QcNum) 0%Qc [x0] false (sl al))
    as (s1 & s2 & a & F0 & F1 & E & _).
  - intros w. apply drawn_linear.
  - reflexivity.
  - reflexivity.
  - reflexivity.
  - vm_compute. discriminate.
  - vm_compute. discriminate.
  - lia.
  - lia.
  - split; [reflexivity|]. split; [reflexivity|]. split; [vm_compute; discriminate|]. split; [vm_compute; discriminate|]. apply Qcle_refl.
  - apply solvable_1. unfold step_matrix. cbn [Nat.eqb Nat.ltb Nat.leb cl ic_nd ic_h i_set i_map em_alpha sl em_setState]. intros H. apply NZ. rewrite <- H. ring.
  - exists s1. exact E.
Qed.
Lemma q2r_qc z (p : positive) : q2r (qc z p) = IZR z / IZR (Zpos p).
Proof. unfold q2r, qc. transitivity (Q2R (z # p)); [apply Qreals.Qeq_eqR; cbn [this]; apply Qred_correct|]. reflexivity. Qed.
Lemma lit0_order : ls_order lit0.
Proof. apply NewtFacts2.qc_ls_order. intros H. discriminate H. Qed.
Lemma no_order (k h : Qc) : forall o, ic_ord (cl k h) = Some o -> Permutation (fst o) (seq 0 (ic_nd (cl k h) + ic_nf (cl k h))) /\ Permutation (snd o) (seq 0 (ic_nd (cl k h) + ic_nf (cl k h))).
Proof. intros o E. discriminate E. Qed.
Lemma no_positions k h : positions_first (ic_nd (cl k h)) (ic_nf (cl k h)) (drawnR k).
Proof. intros t x j _ Hj. cbn [cl ic_nd] in Hj. lia. Qed.
Lemma tol_sl t x soft al : tolerance (i_set (N:=QcNum) t x soft (sl al)) = 1 / 1000 /\ tolerance (sl al) = 1 / 1000.
Proof. split; unfold tolerance; cbn [i_set i_nw sl perf0 p_est est0 e_absTol]; apply q2r_qc. Qed.
(** k = 1000, h = 1/10: the step is a hundred times too long for an explicit solver.  After any number of steps in one unit of time the run is
    within 1/100 of the line. *)
Example C78_stiff_case : forall count, (count <= 10)%nat -> exists s', i_steps (N:=QcNum) no_events nw2 (cl (q 1000) (qc 1 10)) count (i_set (N:=QcNum) 0%Qc [q 0] false (sl (q 1))) = Some s' /\
  q2r (em_t (i_map s')) = INR count / 10 /\ dist2 1 (toR (em_x (i_map s'))) (line (INR count / 10)) <= 1 / 100.
Proof.
  intros count Hc. destruct (run_exists (q 1000) (qc 1 10) (q 1) (q 0) count) as (s' & E); [vm_compute; discriminate|]. exists s'. split; [exact E|].
  assert (Hh : q2r (qc 1 10) = 1 / 10) by apply q2r_qc. assert (Hk : q2r (q 1000) = 1000) by (unfold q; rewrite q2r_qc; lra).
  assert (H10 : INR count <= 10) by (apply le_INR in Hc; replace 10 with (INR 10) by (cbn; lra); exact Hc).
  destruct (C78_stiff bool unit LUModel.lu (simple_dd dx0 None) lit0 3 10 (cl (q 1000) (qc 1 10)) (drawnR (q 1000)) line 1 0 lit0_order (drawn_computes (q 1000)) (no_positions _ _) (no_order _ _)
    count 0%Qc [q 0] false (sl (q 1)) s') as (T & D).
  - intros t x y Lx Ly. eapply Rle_trans; [apply (drawn_one_sided (q 1000)); assumption|]. rewrite Hk.
    change (n_vars (cl (q 1000) (qc 1 10))) with 1%nat. cbn [rsum].
    generalize (cmpR x 0 - cmpR y 0). intros r. nra.
  - lra.
  - apply line_solves.
  - apply line_slope.
  - cbn [cl ic_h]. rewrite Hh. lra.
  - cbn [cl ic_h]. rewrite Hh. lra.
  - apply Qc_is_canon. reflexivity.
  - rewrite (proj2 (tol_sl 0%Qc [] false (q 1))). lra.
  - reflexivity.
  - exact E.
  - cbn [cl ic_h n_vars ic_nd ic_nf Nat.mul Nat.add] in T, D. rewrite Hh, q2r_0 in T. rewrite T in D. rewrite Hh, q2r_0 in D. rewrite (proj2 (tol_sl 0%Qc [] false (q 1))) in D.
    rewrite T. replace (0 + INR count * (1 / 10)) with (INR count / 10) in * by lra. split; [reflexivity|]. eapply Rle_trans; [exact D|].
    change (INR 1) with 1. rewrite sqrt_1. replace (dist2 1 (toR [q 0]) (line 0)) with 0; [lra|].
    unfold dist2, toR, line, cmpR. cbn [rsum map nth]. unfold q. rewrite q2r_qc. replace (0 + (0 / 1 - 0) * (0 / 1 - 0)) with 0 by lra. rewrite sqrt_0. reflexivity.
Qed.
(** Runs from 0 and from 7: a factor of 101 closer each step. *)
Example C78_contraction_case : forall count, exists s' r', i_steps (N:=QcNum) no_events nw2 (cl (q 1000) (qc 1 10)) count (i_set (N:=QcNum) 0%Qc [q 0] false (sl (q 1))) = Some s' /\
  i_steps (N:=QcNum) no_events nw2 (cl (q 1000) (qc 1 10)) count (i_set (N:=QcNum) 0%Qc [q 7] false (sl (q 1))) = Some r' /\
  dist2 1 (toR (em_x (i_map s'))) (toR (em_x (i_map r'))) <= 7 / 101 ^ count + INR count * (1 / 500).
Proof.
  intros count. destruct (run_exists (q 1000) (qc 1 10) (q 1) (q 0) count) as (s' & E); [vm_compute; discriminate|].
  destruct (run_exists (q 1000) (qc 1 10) (q 1) (q 7) count) as (r' & F); [vm_compute; discriminate|]. exists s', r'. split; [exact E|]. split; [exact F|].
  assert (Hh : q2r (qc 1 10) = 1 / 10) by apply q2r_qc. assert (Hk : q2r (q 1000) = 1000) by (unfold q; rewrite q2r_qc; lra).
  pose proof (C78_contraction bool unit LUModel.lu (simple_dd dx0 None) lit0 3 10 (cl (q 1000) (qc 1 10)) (drawnR (q 1000)) lit0_order (drawn_computes (q 1000)) (no_positions _ _) (no_order _ _)
    (- q2r (q 1000)) count 0%Qc [q 0] [q 7] false false (sl (q 1)) s' (sl (q 1)) r') as D.
  cbn [cl ic_h n_vars ic_nd ic_nf Nat.mul Nat.add] in D. rewrite Hh in D. rewrite !(proj2 (tol_sl 0%Qc [] false (q 1))) in D. change (INR 1) with 1 in D. rewrite sqrt_1 in D.
  replace (dist2 1 (toR [q 0]) (toR [q 7])) with 7 in D.
  2:{ unfold dist2, toR, cmpR. cbn [rsum map nth]. unfold q. rewrite !q2r_qc. replace (0 + (0 / 1 - 7 / 1) * (0 / 1 - 7 / 1)) with (7 * 7) by lra. rewrite sqrt_square; lra. }
  rewrite Hk in D. replace (1 - 1 / 10 * - (1000)) with 101 in D by lra. replace (1 / 500) with (1 * (1 / 1000 + 1 / 1000)) by lra. apply D.
  - rewrite <- Hk. apply (drawn_one_sided (q 1000)).
  - lra.
  - lra.
  - apply Qc_is_canon. reflexivity.
  - apply Qc_is_canon. reflexivity.
  - lra.
  - lra.
  - reflexivity.
  - reflexivity.
  - exact E.
  - exact F.
Qed.
(** alpha = 1/2, k = 1, h = 1/10: within e^2 / 50 of the line. *)
Example C78_second_order_case : forall count, (count <= 10)%nat -> exists s', i_steps (N:=QcNum) no_events nw2 (cl (q 1) (qc 1 10)) count (i_set (N:=QcNum) 0%Qc [q 0] false (sl (qc 1 2))) = Some s' /\
  near 1 (toR (em_x (i_map s'))) (line (q2r (em_t (i_map s')))) (exp 2 * (1 / 50)).
Proof.
  intros count Hc. destruct (run_exists (q 1) (qc 1 10) (qc 1 2) (q 0) count) as (s' & E); [vm_compute; discriminate|]. exists s'. split; [exact E|].
  assert (Hh : q2r (qc 1 10) = 1 / 10) by apply q2r_qc. assert (Hk : q2r (q 1) = 1) by (unfold q; rewrite q2r_qc; lra).
  assert (H10 : INR count <= 10) by (apply le_INR in Hc; replace 10 with (INR 10) by (cbn; lra); exact Hc).
  destruct (C78_second_order bool unit LUModel.lu (simple_dd dx0 None) lit0 3 10 (cl (q 1) (qc 1 10)) (drawnR (q 1)) line 1 0 lit0_order (drawn_computes (q 1)) (no_positions _ _) (no_order _ _)
    1 0 (fun _ _ => 0) count 0%Qc [q 0] false (sl (qc 1 2)) s') as (T & D).
  - lra.
  - rewrite <- Hk. apply (drawn_lipschitz (q 1)). rewrite Hk. lra.
  - lra.
  - apply line_solves.
  - apply line_curvature.
  - cbn [cl ic_h]. rewrite Hh. lra.
  - cbn [cl ic_h]. rewrite Hh. lra.
  - apply Qc_is_canon. reflexivity.
  - cbn [cl ic_h]. rewrite Hh. lra.
  - rewrite (proj2 (tol_sl 0%Qc [] false (qc 1 2))). lra.
  - reflexivity.
  - lra.
  - intros [|j] Hj; [|cbn in Hj; lia]. unfold toR, line, cmpR. cbn [map nth]. unfold q. rewrite q2r_qc, q2r_0. replace (0 / 1 - 0) with 0 by lra. rewrite Rabs_R0. lra.
  - exact E.
  - cbn [cl ic_h n_vars ic_nd ic_nf Nat.mul Nat.add] in D. rewrite Hh in D. rewrite (proj2 (tol_sl 0%Qc [] false (qc 1 2))) in D. intros j Hj. eapply Rle_trans; [apply D; exact Hj|].
    right. replace (2 * 1 * 1) with 2 by lra. f_equal. lra.
Qed.
(** The same with alpha = 1/4, by the theorem of first order. *)
Example C78_error_case : forall count, (count <= 10)%nat -> exists s', i_steps (N:=QcNum) no_events nw2 (cl (q 1) (qc 1 10)) count (i_set (N:=QcNum) 0%Qc [q 0] false (sl (qc 1 4))) = Some s' /\
  near 1 (toR (em_x (i_map s'))) (line (q2r (em_t (i_map s')))) (exp 2 * (1 / 50)).
Proof.
  intros count Hc. destruct (run_exists (q 1) (qc 1 10) (qc 1 4) (q 0) count) as (s' & E); [vm_compute; discriminate|]. exists s'. split; [exact E|].
  assert (Hh : q2r (qc 1 10) = 1 / 10) by apply q2r_qc. assert (Hk : q2r (q 1) = 1) by (unfold q; rewrite q2r_qc; lra). assert (Ha : q2r (qc 1 4) = 1 / 4) by apply q2r_qc.
  assert (H10 : INR count <= 10) by (apply le_INR in Hc; replace 10 with (INR 10) by (cbn; lra); exact Hc).
  destruct (C78_error bool unit LUModel.lu (simple_dd dx0 None) lit0 3 10 (cl (q 1) (qc 1 10)) (drawnR (q 1)) line 1 0 lit0_order (drawn_computes (q 1)) (no_positions _ _) (no_order _ _)
    1 0 count 0%Qc [q 0] false (sl (qc 1 4)) s') as (T & D).
  - lra.
  - rewrite <- Hk. apply (drawn_lipschitz (q 1)). rewrite Hk. lra.
  - lra.
  - apply line_solves.
  - apply line_slope.
  - cbn [cl ic_h]. rewrite Hh. lra.
  - cbn [cl ic_h]. rewrite Hh. lra.
  - cbn [sl i_map em_alpha]. rewrite Ha. lra.
  - cbn [sl i_map em_alpha cl ic_h]. rewrite Ha, Hh. lra.
  - rewrite (proj2 (tol_sl 0%Qc [] false (qc 1 4))). lra.
  - reflexivity.
  - lra.
  - intros [|j] Hj; [|cbn in Hj; lia]. unfold toR, line, cmpR. cbn [map nth]. unfold q. rewrite q2r_qc, q2r_0. replace (0 / 1 - 0) with 0 by lra. rewrite Rabs_R0. lra.
  - exact E.
  - cbn [cl ic_h n_vars ic_nd ic_nf Nat.mul Nat.add] in D. rewrite Hh in D. rewrite (proj2 (tol_sl 0%Qc [] false (qc 1 4))) in D. intros j Hj. eapply Rle_trans; [apply D; exact Hj|].
    right. replace (2 * 1 * 1) with 2 by lra. f_equal. lra.
Qed.
(** With alpha = 1/4 the contraction fails: k = 100, h = 1, runs from 0 and from 7 move apart. *)
Definition gap (a b : option (ist QcNum bool unit (perf QcNum (S:=LUModel.lu)))) : option Q :=
  match a, b with Some s, Some r => match em_x (i_map s), em_x (i_map r) with [x], [y] => Some (this (y - x)%Qc) | _, _ => None end | _, _ => None end.
Theorem C78_contraction_any_alpha_refuted : ~ (forall (c : icfg QcNum bool unit) (g : R -> list R -> list R) (t0 x0 y0 : Qc) (s s' r r' : ist QcNum bool unit (perf QcNum (S:=LUModel.lu))),
  (forall w, computes_rhs (n_vars c) (ic_rhs c w) g) -> positions_first (ic_nd c) (ic_nf c) g -> n_vars c = 1%nat -> one_sided 1 0 g -> 0 <= q2r (ic_h c) ->
  0 < q2r (em_alpha (i_map s)) <= 1 -> em_alpha (i_map r) = em_alpha (i_map s) -> tolerance s = 1 / 1000 -> tolerance r = 1 / 1000 ->
  i_steps (N:=QcNum) no_events nw2 c 1 (i_set (N:=QcNum) t0 [x0] false s) = Some s' ->
  i_steps (N:=QcNum) no_events nw2 c 1 (i_set (N:=QcNum) t0 [y0] false r) = Some r' ->
  dist2 1 (toR (em_x (i_map s'))) (toR (em_x (i_map r'))) <= dist2 1 (toR [x0]) (toR [y0]) + 1 / 500).
Proof.
  intros H.
  destruct (run_exists (q 100) (q 1) (qc 1 4) (q 0) 1) as (s' & E); [vm_compute; discriminate|].
  destruct (run_exists (q 100) (q 1) (qc 1 4) (q 7) 1) as (r' & F); [vm_compute; discriminate|].
  assert (G : gap (Some s') (Some r') = Some (-259 # 13)%Q) by (rewrite <- E, <- F; vm_compute; reflexivity).
  cbn [gap] in G. specialize (H (cl (q 100) (q 1)) (drawnR (q 100)) 0%Qc (q 0) (q 7) (sl (qc 1 4)) s' (sl (qc 1 4)) r' (drawn_computes (q 100)) (no_positions _ _) eq_refl).
  destruct (em_x (i_map s')) as [|x [|? ?]]; try discriminate G. destruct (em_x (i_map r')) as [|y [|? ?]]; try discriminate G.
  assert (G2 : q2r (y - x)%Qc = - (259) / 13) by (apply (f_equal (fun o => match o with Some v => Q2R v | None => 0 end)) in G; unfold q2r; etransitivity; [exact G|reflexivity]).
  rewrite q2r_minus in G2. apply Rlt_not_le in H; [exact H|..].
  - unfold dist2, toR, cmpR. cbn [rsum map nth]. unfold q. rewrite !q2r_qc. replace (0 + (0 / 1 - 7 / 1) * (0 / 1 - 7 / 1)) with (7 * 7) by lra. rewrite sqrt_square by lra.
    replace (0 + (q2r x - q2r y) * (q2r x - q2r y)) with (259 / 13 * (259 / 13)) by nra. rewrite sqrt_square; lra.
  - intros t u v Lu Lv. eapply Rle_trans; [apply (drawn_one_sided (q 100)); assumption|]. unfold q. rewrite q2r_qc.
    assert (0 <= rsum 1 (fun j => (cmpR u j - cmpR v j) * (cmpR u j - cmpR v j))); [|lra]. cbn [rsum]. generalize (cmpR u 0 - cmpR v 0). intros e. nra.
  - cbn [cl ic_h]. unfold q. rewrite q2r_qc. lra.
  - cbn [sl i_map em_alpha]. rewrite q2r_qc. lra.
  - reflexivity.
  - apply (tol_sl 0%Qc [] false).
  - apply (tol_sl 0%Qc [] false).
  - exact E.
  - exact F.
Qed.
Print Assumptions C78_contraction_any_alpha_refuted.
