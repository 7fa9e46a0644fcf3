(** ExRos.v - examples and refutations for C42, C43, C44, C45, C60. *)
From Coq Require Import List Arith Bool ZArith QArith Qcanon Lia Qfield.
From Verif Require Import Base BaseFacts VecModel VOps SMap SpModel SpSpec LUSpec LUModel LUFacts5 RkModel RkSpec StepModel ImpSpec RosModel RosSpec RosFacts4 OrdSpec OrdFacts OrdFacts2 PropRos.
Import ListNotations.
Local Open Scope nat_scope.
Definition q (z : Z) : Qc := qc z 1.
Definition show (o : Outcome (list Qc)) : option (list Q) := match o with Ret v => Some (map this v) | _ => None end.
Lemma below2 (P : nat -> nat -> Prop) : P 0 1 -> forall r c, r < c < 2 -> P r c.
Proof. intros H [|r] [|[|c]] Q; try lia. exact H. Qed.

(** * A system with one second order and one first order variable: u' = v, v' = -u - v, z' = u - v + t *)
Definition sys3 (t : Qc) (x : list Qc) : Outcome (list Qc) := match x with [u; v; z] => Ret [v; (- u - v)%Qc; (u - v + t)%Qc] | _ => Throw end.
Lemma sys3_good : good_rhs (N:=QcNum) 3 sys3.
Proof. intros t x L. destruct x as [|u [|v [|z [|? x]]]]; try discriminate L. eexists. split; reflexivity. Qed.
Definition h3 : list rcall :=
  [RInit true 1 1 sys3 0%Qc [q 1; q 2; q 3] [q 2; q (-3); q (-1)] (qc 1 2); RSolve [q 1; q 0; q 0] (qc 1 2); RInit false 1 1 sys3 0%Qc [] [] (qc 1 4)].
Example h3_proper : proper h3.
Proof. split; [|repeat eexists]. repeat constructor. exact sys3_good. Qed.
Example h3_requested : requested h3 = Some (qc 1 4) /\ last_hard h3 = Some (RInit true 1 1 sys3 0%Qc [q 1; q 2; q 3] [q 2; q (-3); q (-1)] (qc 1 2)). Proof. split; reflexivity. Qed.
Example h3_solvable : solvable (ros_hist h3) (qc 1 4).
Proof.
  split.
  - apply (nonsing_check_ok 2 _ [[q 1; q 0]; [qc 1 7; q 1]] [[qc 21 16; q 0]; [q 0; q 1]]). vm_compute. reflexivity.
  - apply C42_pattern. intros r c H [r' [Hr [v Hv]]]. exfalso. revert r' Hr v Hv. revert r c H.
    apply (below2 (fun r c => forall r', r' <= r -> forall v, In ((r', c), v) (w_stencil 2 (J1_ (ros_hist h3)) (J2_ (ros_hist h3))) -> False)).
    intros r' Hr v Hv. vm_compute in Hv. assert (r' = 0) by lia. subst. repeat (destruct Hv as [Hv|Hv]; [discriminate Hv|]). exact Hv.
Qed.
Example C42_solve_case : show (solution (ros_linSolve [q 1; q 2; q 3] (qc 1 4) (ros_hist h3))) = Some [(4 # 3)%Q; (4 # 3)%Q; 3%Q].
Proof. vm_compute. reflexivity. Qed.
Example C42_mult_case : show (ros_mult [q 0; q 0; q 0] [q 1; q 2; q 3] (ros_hist h3)) = Some [2%Q; (- 3)%Q; (- 1)%Q].
Proof. vm_compute. reflexivity. Qed.
Example C42_solve_instance : exists (r' : ros) (x : list Qc), ros_linSolve [q 1; q 2; q 3] (qc 1 4) (ros_hist h3) = Ret (r', x) /\ length x = 3 /\
  solves 3 (shifted (qc 1 4) (jac (ros_hist h3))) (vfun x) (vfun [q 1; q 2; q 3]).
Proof. apply (C42_solve h3 (qc 1 4) [q 1; q 2; q 3] h3_proper eq_refl); [discriminate|exact h3_solvable|vm_compute; reflexivity|vm_compute; lia]. Qed.
(** C44: the same from another history *)
Definition h3' : list rcall := [RInit true 1 1 sys3 0%Qc [q 1; q 2; q 3] [q 2; q (-3); q (-1)] (qc 1 4)].
Example C44_history_case : show (solution (ros_linSolve [q 1; q 2; q 3] (qc 1 4) (ros_hist h3'))) = Some [(4 # 3)%Q; (4 # 3)%Q; 3%Q] /\ length (ro_cache (ros_hist h3)) = 2.
Proof. vm_compute. split; reflexivity. Qed.

(** * The condition on the fill-in is needed: x0' = x2, x1' = x0, x2' = 0 *)
Definition chain (t : Qc) (x : list Qc) : Outcome (list Qc) := match x with [a; b; c] => Ret [c; a; 0%Qc] | _ => Throw end.
Definition hc : list rcall := [RInit true 0 3 chain 0%Qc [q 1; q 1; q 1] [q 1; q 1; q 0] (q 1)].
Lemma hc_proper : proper hc.
Proof.
  split; [|repeat eexists]. repeat constructor. intros t x L. destruct x as [|u [|v [|z [|? x]]]]; try discriminate L. eexists. split; reflexivity.
Qed.
Theorem C42_solve_uncovered_refuted : ~ (forall (l : list rcall) (hd : Qc) (b : list Qc), proper l -> requested l = Some hd -> hd <> 0%Qc ->
  leading_nonsingular (ro_m (ros_hist l)) (wmat hd (J1_ (ros_hist l)) (J2_ (ros_hist l))) -> length b = ro_n (ros_hist l) -> 0 < ro_m (ros_hist l) ->
  exists (r' : ros) (x : list Qc), ros_linSolve b hd (ros_hist l) = Ret (r', x) /\ length x = ro_n (ros_hist l) /\
    solves (ro_n (ros_hist l)) (shifted hd (jac (ros_hist l))) (vfun x) (vfun b)).
Proof.
  intros H. destruct (H hc (q 1) [q 0; q 0; q 1] hc_proper eq_refl) as (r' & x & E & L & S).
  - discriminate.
  - apply (nonsing_check_ok 3 _ [[q 1; q 0; q 0]; [q (-1); q 1; q 0]; [q 0; q 0; q 1]] [[q 1; q 0; q (-1)]; [q 0; q 1; q (-1)]; [q 0; q 0; q 1]]). vm_compute. reflexivity.
  - reflexivity.
  - vm_compute. lia.
  - apply (f_equal solution) in E. cbn [solution] in E. apply (f_equal show) in E. assert (SX : show (Ret x) = Some [1%Q; 0%Q; 1%Q]) by (rewrite <- E; vm_compute; reflexivity).
    cbn [show] in SX. injection SX as SX. destruct x as [|a [|b [|d [|? x]]]]; try discriminate SX. cbn [map] in SX. injection SX as A B D.
    assert (a = q 1) by (apply Qc_is_canon; rewrite A; reflexivity). assert (b = q 0) by (apply Qc_is_canon; rewrite B; reflexivity). assert (d = q 1) by (apply Qc_is_canon; rewrite D; reflexivity). subst.
    assert (N : ro_n (ros_hist hc) = 3) by (vm_compute; reflexivity). rewrite N in S. specialize (S 1). specialize (S ltac:(lia)). apply (f_equal this) in S. vm_compute in S. discriminate S.
Qed.

(** * Damping in a second order system is not seen: u' = v, v' = -u - v *)
Definition damped (t : Qc) (x : list Qc) : Outcome (list Qc) := match x with [u; v] => Ret [v; (- u - v)%Qc] | _ => Throw end.
Definition hd1 : list rcall := [RInit true 1 0 damped 0%Qc [q 1; q 2] [q 2; q (-3)] (qc 1 2)].
Lemma hd1_proper : proper hd1.
Proof. split; [|repeat eexists]. repeat constructor. intros t x L. destruct x as [|u [|v [|? x]]]; try discriminate L. eexists. split; reflexivity. Qed.
Theorem C43_damping_refuted : ~ (forall (l : list rcall) (n2 n1 : nat) (f : Qc -> list Qc -> Outcome (list Qc)) (t : Qc) (x0 f0 : list Qc) (hd : Qc),
  proper l -> last_hard l = Some (RInit true n2 n1 f t x0 f0 hd) ->
  forall i k, n2 <= i < 2 * n2 + n1 -> k < 2 * n2 + n1 -> jac (ros_hist l) i k = difference f t x0 f0 i k).
Proof.
  intros H. specialize (H hd1 1 0 damped 0%Qc [q 1; q 2] [q 2; q (-3)] (qc 1 2) hd1_proper eq_refl 1 1). specialize (H ltac:(lia) ltac:(lia)).
  apply (f_equal this) in H. vm_compute in H. discriminate H.
Qed.
(** C43: the last variable of sys3 has no influence, and so its Jacobian is complete *)
Example C43_complete_case : forall i k, 1 <= i < 3 -> k < 3 -> jac (ros_hist h3) i k = difference sys3 0%Qc [q 1; q 2; q 3] [q 2; q (-3); q (-1)] i k.
Proof.
  apply (proj2 (C43_complete_iff h3 1 1 sys3 0%Qc [q 1; q 2; q 3] [q 2; q (-3); q (-1)] (qc 1 2) h3_proper eq_refl)).
  intros i k Hi Hk. assert (k = 2) by lia. subst k. assert (C : i = 1 \/ i = 2) by lia. destruct C as [-> | ->]; apply Qc_is_canon; vm_compute; reflexivity.
Qed.
Example C43_jacobian_case : map (fun p => this (jac (ros_hist h3) (fst p) (snd p))) [(0,0); (0,1); (0,2); (1,0); (1,1); (1,2); (2,0); (2,1); (2,2)] = [0%Q; 1%Q; 0%Q; (-1)%Q; (-1)%Q; 0%Q; 1%Q; (-1)%Q; 0%Q].
Proof. vm_compute. reflexivity. Qed.

(** * A first request of step 0 (no step size set) selects no decomposition, and linSolve follows a null pointer (updateW 153, initStep 80-88) *)
Theorem C44_zero_step_refuted : ~ (forall (l : list rcall) (hd : Qc) (b : list Qc), proper l -> requested l = Some hd -> length b = ro_n (ros_hist l) -> 0 < ro_m (ros_hist l) -> ros_linSolve b hd (ros_hist l) <> UB).
Proof.
  intros H. apply (H [RInit true 1 1 sys3 0%Qc [q 1; q 2; q 3] [q 2; q (-3); q (-1)] 0%Qc] 0%Qc [q 1; q 2; q 3]); try reflexivity.
  - split; [|repeat eexists]. repeat constructor. exact sys3_good.
  - vm_compute. lia.
Qed.

(** * Runs of SW2(4): x' = -x with step size control that refuses steps above 1/4 *)
Definition decay (t : Qc) (x : list Qc) : Outcome (list Qc) := match x with [a] => Ret [(- a)%Qc] | _ => Throw end.
Definition dc : rcfg unit := mkRcfg 0 1 (1%Qc) (fun _ => decay) (fun _ _ _ w => Ret w) 0%Qc false (fun v => Ret (Qcabs (cmp_ v 0)))
  (fun h _ => if Qcleb h (qc 1 4) then (h, true, false) else ((h * qc 1 2)%Qc, false, true)).
Lemma dc_safe : r_safe (no_events (N:=QcNum)) dc decay.
Proof.
  split; [cbn; lia|]. split; [intros t x L; destruct x as [|a [|? x]]; try discriminate L; eexists; split; reflexivity|]. split; [reflexivity|].
  split; [intros; eexists; reflexivity|]. split; [intros; eexists; reflexivity|]. split; [|intros; eexists; reflexivity].
  intros x1 x2 t2 w _ L2. eexists. eexists. split; [reflexivity|]. split; [exact L2|]. intros _. split; reflexivity.
Qed.
Definition s0 (h : Qc) : rst unit := fst (sw_set dc 0%Qc [q 1] false (q_setStep h (q_new tt))).
Lemma s0_reach h : sw_reach (no_events (N:=QcNum)) dc (s0 h). Proof. apply sw_start. reflexivity. Qed.
Definition showr (p : rst unit * list (postarg QcNum) * option (attempt QcNum)) : list Q * Q * list Q * option bool :=
  let '(s, l, o) := p in (map this (q_x s), this (q_t s), map (fun a : postarg QcNum => this (pa_h a : Qc)) l, match o with Some (AAccepted _) => Some true | Some _ => Some false | None => None end).
(** accepted at once, and after one refused attempt *)
Example C45_run_case : showr (sw_step no_events dc 5 (s0 (qc 1 4))) = ([(39 # 50)%Q], (1 # 4)%Q, [(1 # 4)%Q], Some true) /\
  showr (sw_step no_events dc 5 (s0 (qc 1 2))) = ([(59 # 72)%Q], (1 # 4)%Q, [(1 # 2)%Q; (1 # 4)%Q], Some true).
Proof. split; vm_compute; reflexivity. Qed.
Example dc_solvable : solvable (q_ros (fst (fst (sw_step no_events dc 5 (s0 (qc 1 2)))))) (q_h (s0 (qc 1 2)) * rc_d dc).
Proof.
  split; [|intros L U HL HU HP r c Hrc; exfalso; change (r < c < 1) in Hrc; lia].
  apply (nonsing_check_ok 1 _ [[q 1]] [[qc 3 2]]). vm_compute. reflexivity.
Qed.
(** After a refused attempt the decomposition is that of the refused step size: the step is not that of the method. *)
Lemma one_solution hw (J : nat -> nat -> Qc) (x b : nat -> Qc) : solves 1 (shifted hw J) x b -> ((1 - hw * J 0%nat 0%nat) * x 0%nat = b 0%nat)%Qc.
Proof. intros S. rewrite <- (S 0 (Nat.lt_0_succ 0)). cbn [qsum]. unfold shifted, delta. cbn [Nat.eqb]. ring. Qed.
Theorem C45_stale_refuted : ~ (forall (s : rst unit) (fuel : nat) (s' : rst unit) (l : list (postarg QcNum)) (a : postarg QcNum), sw_reach no_events dc s -> sw_step no_events dc fuel s = (s', l, Some (AAccepted a)) ->
  pa_trunc a = false -> (q_h s * rc_d dc)%Qc <> 0%Qc -> solvable (q_ros s') (q_h s * rc_d dc)%Qc ->
  exists f0 k1 k2 : list Qc, decay (q_t s) (q_x s) = Ret f0 /\
    sw_formula 1 (jac (q_ros s')) (pa_h a * rc_d dc) (pa_h a * rc_d dc) decay (q_t s) (q_x s) f0 (pa_h a) k1 k2 (q_x s')).
Proof.
  intros H. specialize (H (s0 (qc 1 2)) 5). pose proof dc_solvable as DS. pose proof (proj2 C45_run_case) as RC.
  assert (AC : exists a, snd (sw_step no_events dc 5 (s0 (qc 1 2))) = Some (AAccepted a) /\ pa_trunc a = false /\ this (pa_h a) = (1 # 4)%Q) by (eexists; split; [vm_compute; reflexivity|split; [reflexivity|vm_compute; reflexivity]]).
  assert (JJ : this (jac (q_ros (fst (fst (sw_step no_events dc 5 (s0 (qc 1 2)))))) 0 0) = (-1)%Q) by (vm_compute; reflexivity).
  destruct (sw_step no_events dc 5 (s0 (qc 1 2))) as [[s' l] o] eqn:E. cbn [fst snd] in *. destruct AC as (a & -> & TR & HA).
  destruct (H s' l a (s0_reach _) eq_refl TR ltac:(discriminate) DS) as (f0 & k1 & k2 & EF & FO). clear H E DS.
  assert (PA : pa_h a = qc 1 4) by (apply Qc_is_canon; rewrite HA; reflexivity). rewrite PA in FO.
  assert (J0 : jac (q_ros s') 0 0 = q (-1)) by (apply Qc_is_canon; rewrite JJ; reflexivity).
  unfold showr in RC. injection RC as RX _ _. destruct (q_x s') as [|x1 [|? rest]] eqn:QX; try discriminate RX. injection RX as RX.
  assert (X1 : x1 = qc 59 72) by (apply Qc_is_canon; rewrite RX; reflexivity). subst x1.
  change (Ret [(- q 1)%Qc] = Ret f0) in EF. injection EF as <-.
  destruct FO as (L1 & L2 & _ & S1 & (y & f2 & LY & VY & EY & S2) & VN).
  apply one_solution in S1, S2. rewrite J0 in S1, S2. cbn [rc_d dc] in S1, S2.
  destruct k1 as [|a1 [|? ?]]; try discriminate L1. destruct k2 as [|a2 [|? ?]]; try discriminate L2. destruct y as [|y0 [|? ?]]; try discriminate LY.
  change (Ret [(- y0)%Qc] = Ret f2) in EY. injection EY as <-. specialize (VY 0 (Nat.lt_0_succ 0)). specialize (VN 0 (Nat.lt_0_succ 0)).
  unfold cmp_, vfun, matvec in *. cbn [qsum nth] in *. rewrite J0 in S2. change (q_x (s0 (qc 1 2))) with [q 1] in *. cbn [nth] in *. unfold cmp_ in S2. cbn [nth] in S2.
  assert (A1 : a1 = qc (-4) 5) by (clear - S1; unfold q in *; qcnra). subst a1. assert (Y0 : y0 = qc 13 15) by (rewrite VY; apply Qc_is_canon; reflexivity). subst y0.
  assert (A2 : a2 = qc (-68) 75) by (clear - S2; unfold q in *; qcnra). subst a2. apply (f_equal this) in VN. vm_compute in VN. discriminate VN.
Qed.
Lemma run4 : exists s' l a, sw_step no_events dc 5 (s0 (qc 1 4)) = (s', l, Some (AAccepted a)) /\ pa_trunc a = false /\ length l = 1 /\ solvable (q_ros s') (qc 1 4 * 1)%Qc /\ q_h (s0 (qc 1 4)) = qc 1 4.
Proof.
  assert (AC : exists a, snd (sw_step no_events dc 5 (s0 (qc 1 4))) = Some (AAccepted a) /\ pa_trunc a = false) by (eexists; split; [vm_compute; reflexivity|reflexivity]).
  assert (LL : length (snd (fst (sw_step no_events dc 5 (s0 (qc 1 4))))) = 1) by (vm_compute; reflexivity).
  assert (SO : solvable (q_ros (fst (fst (sw_step no_events dc 5 (s0 (qc 1 4)))))) (qc 1 4 * 1)%Qc).
  { split; [|intros L U HL HU HP r c Hrc; exfalso; change (r < c < 1) in Hrc; lia]. apply (nonsing_check_ok 1 _ [[q 1]] [[qc 5 4]]). vm_compute. reflexivity. }
  destruct (sw_step no_events dc 5 (s0 (qc 1 4))) as [[s' l] o]. cbn [fst snd] in *. destruct AC as (a & -> & T). exists s', l, a. auto.
Qed.
(** The hypotheses of C45_step hold for this run. *)
Example C45_step_case : exists (s' : rst unit) (f0 k1 k2 : list Qc), decay 0%Qc [q 1] = Ret f0 /\
  sw_formula 1 (jac (q_ros s')) (qc 1 4 * 1) (qc 1 4 * 1) decay 0%Qc [q 1] f0 (qc 1 4) k1 k2 (q_x s').
Proof.
  destruct run4 as (s' & l & a & E & T & L & SO & QH).
  destruct (C45_step unit no_events dc decay dc_safe _ _ _ _ _ (s0_reach (qc 1 4)) E T ltac:(discriminate) SO (or_introl eq_refl)) as (f0 & k1 & k2 & EF & _ & _ & PH & FO & _).
  specialize (PH L). rewrite PH in FO. exists s', f0, k1, k2. split; [exact EF|exact FO].
Qed.

(** * Order two: f(t, x) = x^2 + t near x = 1, t = 0, with F = 2 and g = 1 *)
Definition riccati (t : Qc) (x : list Qc) : Outcome (list Qc) := match x with [a] => Ret [(a * a + t)%Qc] | _ => Throw end.
Example C45_expands_case : expands 1 riccati 0%Qc [q 1] [q 1] (fun _ => 1%Qc) (fun _ _ => q 2).
Proof.
  exists 1%Qc, 1%Qc. split; [discriminate|]. split; [reflexivity|]. intros tau y L dist D. destruct y as [|a [|? y]]; try discriminate L.
  eexists. split; [reflexivity|]. split; [reflexivity|]. intros [|j] Hj; [|lia]. unfold cmp_. cbn [nth qsum].
  assert (G : (Qcabs (a - q 1) <= dist)%Qc). { unfold dist, norm1, cmp_. cbn [nth qsum]. pose proof (Qcabs_nonneg tau). qclra. }
  replace (a * a + (0 + tau) - (q 1 + 1 * tau + (0 + q 2 * (a - q 1))))%Qc with ((a - q 1) * (a - q 1))%Qc by (unfold q; replace (qc 2 1) with (1 + 1)%Qc by (apply Qc_is_canon; reflexivity); replace (qc 1 1) with 1%Qc by (apply Qc_is_canon; reflexivity); ring).
  rewrite Qcabs_mult. pose proof (Qcabs_nonneg (a - q 1)). clear - G H. generalize dependent (Qcabs (a - q 1)). intros z G H. generalize dependent dist. intros w G. qcnra.
Qed.
(** With the decomposition of another step size (here twice as long: the retry after one refusal) the order is one: x' = -x. *)
Example decay_expands : expands 1 decay 0%Qc [q 1] [q (-1)] (fun _ => 0%Qc) (fun _ _ => q (-1)).
Proof.
  exists 0%Qc, 1%Qc. split; [discriminate|]. split; [reflexivity|]. intros tau y L dist D. destruct y as [|a [|? y]]; try discriminate L.
  eexists. split; [reflexivity|]. split; [reflexivity|]. intros [|j] Hj; [|lia]. unfold cmp_. cbn [nth qsum].
  replace (- a - (q (-1) + 0 * tau + (0 + q (-1) * (a - q 1))))%Qc with 0%Qc.
  - rewrite (proj2 (Qcabs_zero_iff 0) eq_refl). replace (0 * (dist * dist))%Qc with 0%Qc by ring. discriminate.
  - unfold q. replace (qc (-1) 1) with (-(1))%Qc by (apply Qc_is_canon; reflexivity); replace (qc 1 1) with 1%Qc by (apply Qc_is_canon; reflexivity); ring.
Qed.
Theorem C45_stale_order_refuted : ~ (forall (n : nat) (J : nat -> nat -> Qc) (d : Qc) (f : Qc -> list Qc -> Outcome (list Qc)) (t : Qc) (x f0 : list Qc) (g : nat -> Qc) (F : nat -> nat -> Qc),
  expands n f t x f0 g F -> exists C h0 : Qc, (0 <= C)%Qc /\ (0 < h0)%Qc /\
  forall (h : Qc) (k1 k2 next : list Qc), (Qcabs h <= h0)%Qc -> sw_formula n J ((1 + 1) * h * d) (h * d) f t x f0 h k1 k2 next ->
    (norm1 n (fun j => (cmp_ next j - taylor2 n x f0 g F h j)%Qc) <= C * Qcabs h ^ 3)%Qc).
Proof.
  intros H. destruct (H 1 (fun _ _ => q (-1)) 1%Qc decay 0%Qc [q 1] [q (-1)] _ _ decay_expands) as (C & h0 & HC & Hh & B). clear H.
  assert (Q1 : q 1 = 1%Qc) by (apply Qc_is_canon; reflexivity). assert (QM : q (-1) = (-(1))%Qc) by (apply Qc_is_canon; reflexivity).
  assert (C1 : (0 < (1 + 1) * (C + 1))%Qc) by qclra.
  assert (IV : ((1 + 1) * (C + 1) * / ((1 + 1) * (C + 1)) = 1)%Qc) by (apply Qcmult_inv_r; intros Z; rewrite Z in C1; discriminate C1).
  assert (CP : (0 < / ((1 + 1) * (C + 1)))%Qc) by (generalize dependent (/ ((1 + 1) * (C + 1)))%Qc; intros r IV; clear - C1 IV; qcnra).
  set (r := (/ ((1 + 1) * (C + 1)))%Qc) in *. set (h := qmin h0 (qmin (qc 1 10) r)).
  assert (P : (0 < h)%Qc) by (apply qmin_pos; [exact Hh|apply qmin_pos; [reflexivity|exact CP]]).
  assert (L1 : (h <= h0)%Qc) by apply qmin_l. assert (L2 : (h <= qc 1 10)%Qc) by (eapply Qcle_trans; [apply qmin_r|apply qmin_l]).
  assert (L3 : (h <= r)%Qc) by (eapply Qcle_trans; [apply qmin_r|apply qmin_r]). clearbody h.
  assert (AB : Qcabs h = h) by (apply Qcabs_pos; apply Qclt_le_weak; exact P).
  assert (D1 : (0 < 1 + (1 + 1) * h)%Qc) by qclra.
  assert (UI : ((1 + (1 + 1) * h) * / (1 + (1 + 1) * h) = 1)%Qc) by (apply Qcmult_inv_r; intros Z; rewrite Z in D1; discriminate D1).
  set (u := (/ (1 + (1 + 1) * h))%Qc) in *. clearbody u.
  specialize (B h [(- u)%Qc] [(- ((1 + qc 2 3 * h * u) * u))%Qc] [(1 + h * (qc 1 4 * (- u) + qc 3 4 * (- ((1 + qc 2 3 * h * u) * u))))%Qc]).
  rewrite AB in B. specialize (B L1).
  assert (S1 : forall (x b : nat -> Qc), ((1 + (1 + 1) * h) * x 0%nat = b 0%nat)%Qc -> solves 1 (shifted ((1 + 1) * h * 1) (fun _ _ => q (-1))) x b).
  { intros x b E [|i] Hi; [|lia]. cbn [qsum]. unfold shifted, delta. cbn [Nat.eqb]. rewrite QM, <- E. ring. }
  assert (FO : sw_formula 1 (fun _ _ => q (-1)) ((1 + 1) * h * 1) (h * 1) decay 0%Qc [q 1] [q (-1)] h [(- u)%Qc] [(- ((1 + qc 2 3 * h * u) * u))%Qc] [(1 + h * (qc 1 4 * (- u) + qc 3 4 * (- ((1 + qc 2 3 * h * u) * u))))%Qc]).
  { split; [reflexivity|]. split; [reflexivity|]. split; [reflexivity|]. split; [|split].
    - apply S1. unfold vfun. cbn [nth]. rewrite QM. replace ((1 + (1 + 1) * h) * - u)%Qc with (- ((1 + (1 + 1) * h) * u))%Qc by ring. rewrite UI. reflexivity.
    - exists [(q 1 + qc 2 3 * h * - u)%Qc], [(- (q 1 + qc 2 3 * h * - u))%Qc]. split; [reflexivity|]. split; [intros [|j] Hj; [reflexivity|lia]|]. split; [reflexivity|].
      apply S1. unfold vfun, matvec, cmp_. cbn [nth qsum]. rewrite QM, Q1.
      transitivity (- (1 + qc 2 3 * h * u) * ((1 + (1 + 1) * h) * u))%Qc; [ring|]. rewrite UI. replace (qc 4 3) with (qc 2 3 + qc 2 3)%Qc by (apply Qc_is_canon; reflexivity). ring.
    - intros [|j] Hj; [|lia]. unfold cmp_. cbn [nth]. rewrite Q1. reflexivity. }
  specialize (B FO). unfold norm1, taylor2, cmp_ in B. cbn [nth qsum] in B. rewrite Q1, QM in B.
  assert (U1 : (qc 5 6 <= u)%Qc) by (clear - UI P L2 D1; qcnra). assert (U2 : (u <= 1)%Qc) by (clear - UI P L2 D1; qcnra).
  assert (EL : (qc 1 2 < (1 + 1) * u - qc 1 2 * (1 + u * u))%Qc) by (clear - U1 U2; qcnra).
  match type of B with (_ + Qcabs ?z <= _)%Qc => assert (ZE : z = (h * h * ((1 + 1) * u - qc 1 2 * (1 + u * u)))%Qc) end.
  { assert (HU : (h * ((1 + (1 + 1) * h) * u) = h)%Qc) by (rewrite UI; ring). clear - HU. qclra. }
  rewrite ZE in B. clear ZE. set (e := ((1 + 1) * u - qc 1 2 * (1 + u * u))%Qc) in *. clearbody e. 
  assert (HP : (0 < h * h * e)%Qc) by (clear - P EL; qcnra).
  rewrite (Qcabs_pos _ (Qclt_le_weak _ _ HP)) in B.
  assert (CH : ((1 + 1) * (C + 1) * h <= 1)%Qc) by (assert (h * ((1 + 1) * (C + 1)) <= r * ((1 + 1) * (C + 1)))%Qc by (apply Qcmult_le_compat_r; [exact L3|apply Qclt_le_weak; exact C1]); clear - H IV; clearbody r; qclra).
  assert (HH : (0 < h * h)%Qc) by (clear - P; qcnra).
  assert (B' : (h * h * e <= h * h * (C * h))%Qc). { replace (h * h * (C * h))%Qc with (C * h ^ 3)%Qc by (simpl; ring). clear - B. generalize dependent (C * h ^ 3)%Qc. intros z B. qclra. }
  assert (CL : (C * h <= qc 1 2)%Qc) by (clear - CH P; qclra). clear - B' CL EL HH. generalize dependent (h * h)%Qc. generalize dependent (C * h)%Qc. intros. qcnra.
Qed.

(** * Runs of W1: u' = -u + v, v' = -u - v with steps of 2 and d = 1 *)
Definition spiral (t : Qc) (x : list Qc) : Outcome (list Qc) := match x with [a; b] => Ret [(- a + b)%Qc; (- a - b)%Qc] | _ => Throw end.
Definition sc : rcfg unit := mkRcfg 0 2 (1%Qc) (fun _ => spiral) (fun _ _ _ w => Ret w) 0%Qc false (fun v => Ret (Qcabs (cmp_ v 0))) (fun h _ => (h, true, false)).
Lemma sc_safe : r_safe (no_events (N:=QcNum)) sc spiral.
Proof.
  split; [cbn; lia|]. split; [intros t x L; destruct x as [|a [|b [|? x]]]; try discriminate L; eexists; split; reflexivity|]. split; [reflexivity|].
  split; [intros; eexists; reflexivity|]. split; [intros; eexists; reflexivity|]. split; [|intros; eexists; reflexivity].
  intros x1 x2 t2 w _ L2. eexists. eexists. split; [reflexivity|]. split; [exact L2|]. intros _. split; reflexivity.
Qed.
Definition w0 : rst unit := w1_set 0%Qc [q 1; q 2] false (q_setStep (q 2) (q_new tt)).
Definition showw (p : rst unit * attempt QcNum) : list Q * Q * bool := (map this (q_x (fst p)), this (q_t (fst p)), match snd p with AAccepted _ => true | _ => false end).
Example C60_run_case : showw (w1_step no_events sc w0) = ([(7 # 13)%Q; (4 # 13)%Q], 2%Q, true).
Proof. vm_compute. reflexivity. Qed.
Lemma sc_cover (r : ros) : ro_m r = 2 -> (negb (Qceqb (J1_ r 0 1) 0) || negb (Qceqb (J2_ r 0 1) 0)) = true -> stencil_covers (w_stencil 2 (J1_ r) (J2_ r)) 2.
Proof.
  intros _ K. refine (below2 (fun a b => (exists r', r' <= a /\ stored (w_stencil 2 (J1_ r) (J2_ r)) r' b) -> exists c', b <= c' /\ stored (w_stencil 2 (J1_ r) (J2_ r)) a c') _).
  intros _. exists 1. split; [lia|]. exists 0%Qc. unfold w_stencil. apply in_flat_map. exists 0. split; [apply in_seq; lia|]. apply in_flat_map. exists 1. split; [apply in_seq; lia|].
  cbn [Nat.eqb orb]. rewrite K. left. reflexivity.
Qed.
Example C60_solvable_case : solvable (q_ros (fst (q_init sc true w0))) (q_h w0 * rc_d sc).
Proof.
  split.
  - apply (nonsing_check_ok 2 _ [[q 1; q 0]; [qc 2 3; q 1]] [[q 3; q (-2)]; [q 0; qc 13 3]]). vm_compute. reflexivity.
  - apply C42_pattern. apply sc_cover; vm_compute; reflexivity.
Qed.
Example C60_accepts_case : exists a : postarg QcNum, snd (w1_step no_events sc w0) = AAccepted a /\ pa_h a = q 2.
Proof. apply (C60_accepts unit no_events sc spiral sc_safe w0); [apply w1_start; reflexivity|discriminate|exact C60_solvable_case]. Qed.
Example C60_dissipative_case : dissipative 2 (fun i k => if i =? k then q (-1) else if i =? 0 then q 1 else q (-1)).
Proof.
  intros y. cbn [qsum Nat.eqb]. assert (Q1 : q 1 = 1%Qc) by (apply Qc_is_canon; reflexivity). assert (QM : q (-1) = (-(1))%Qc) by (apply Qc_is_canon; reflexivity). rewrite Q1, QM.
  generalize (y 0) (y 1). intros a b. qcnra.
Qed.
