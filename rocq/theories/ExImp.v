(** ExImp.v - examples and refutations for C40, C41. *)
From Coq Require Import List Arith Bool ZArith QArith Qcanon Lia Qfield Permutation.
From Verif Require Import Base BaseFacts SMap SpModel VecModel VOps MapModel JacModel JacSpec LUModel LUSpec NewtModel NewtSpec RkModel RkSpec StepModel StepSpec ExtModel ExtFacts5 EvModel ImpModel ImpSpec ImpFacts ImpFacts2 ImpFacts3 ImpFacts4 PropImp.
Import ListNotations.
Local Open Scope nat_scope.
Definition q (z : Z) : Qc := qc z 1.

(** * A damped oscillator u' = v, v' = -u - b v with a relaxing variable z' = u - z: one second order and one first order equation *)
Definition osc (b : Qc) (t : Qc) (x : list Qc) : Outcome (list Qc) :=
  match x with [u; v; z] => Ret [v; (- u - b * v)%Qc; (u - z)%Qc] | _ => Throw end.
Lemma osc_second b : second_order 1 1 (osc b).
Proof.
  intros t x L. destruct x as [|u [|v [|z [|? x]]]]; try discriminate L. eexists. split; [reflexivity|]. split; [reflexivity|].
  intros [|i] Hi; [reflexivity|lia].
Qed.
Definition m0 : emap QcNum := mkEM (N:=QcNum) (qc 1 2) (q 1) 0%Qc [q 1; q 0; q 2] [] false.
Definition show {A} (f : A -> list Qc) (o : Outcome A) : option (list Q) := match o with Ret a => Some (map this (f a)) | _ => None end.
(** the value at some point, and at the root *)
Example C40_map_case : show fst (em_map 1 1 (osc 0%Qc) [q 1; q 1] m0) = Some [(9 # 4)%Q; (- 3 # 4)%Q].
Proof. vm_compute. reflexivity. Qed.
Example C40_root_case : show fst (em_map 1 1 (osc 0%Qc) [qc (-4) 5; qc 6 5] m0) = Some [0%Q; 0%Q] /\ show (fun x => x) (em_expand 1 1 m0 [qc (-4) 5; qc 6 5]) = Some [(3 # 5)%Q; (- 4 # 5)%Q; (6 # 5)%Q].
Proof. split; vm_compute; reflexivity. Qed.
(** a history of calls: the value after them is the one of the last parameters *)
Example C40_cache_case : show (fun x => x) (em_value 1 1 (osc 0%Qc) [q 1; q 1] (em_hist (osc 0%Qc) [CMap [q 0; q 0]; CStep (N:=QcNum) (q 2); CMap [q 1; q 1]; CAlpha (N:=QcNum) (q 1); CState (N:=QcNum) (q 1) [q 0; q 1; q 3]; CMap [q 5; q 5]] m0)) =
  Some [4%Q; (- 4)%Q].
Proof. vm_compute. reflexivity. Qed.

(** Replacing the right-hand side (setOdeRhs 78-80) leaves the cached slope of the old one.  The solver's doStep starts with setTimeStep, so it is not affected. *)
Theorem C40_cache_other_rhs_refuted : ~ (forall (f1 f2 : Qc -> list Qc -> Outcome (list Qc)) (m : emap QcNum) (x y : list Qc), em_valid m = false ->
  em_value 1 1 f2 y (em_hist f1 [CMap x] m) = em_value 1 1 f2 y (em_uncached m)).
Proof.
  intros H. specialize (H (osc 0%Qc) (osc (q 1)) (mkEM (N:=QcNum) 0%Qc (q 1) 0%Qc [q 1; q 1; q 2] [] false) [q 1; q 1] [q 1; q 1] eq_refl).
  apply (f_equal (show (fun x => x))) in H. vm_compute in H. discriminate H.
Qed.
(** Below one half the method is not unconditionally stable: x' = -3 x, alpha = 1/4, h = 4. *)
Theorem C40_stable_below_half_refuted : ~ (forall (A : nat -> nat -> Qc) (f : Qc -> list Qc -> Outcome (list Qc)) (h al t0 t1 : Qc) (X0 X1 F0 F1 : list Qc),
  linear_rhs 1 A (fun _ _ => 0%Qc) f -> length X0 = 1 -> f t0 X0 = Ret F0 -> f t1 X1 = Ret F1 ->
  alpha_update 0 1 h al X0 F0 X1 F1 -> dissipative 1 A -> (0 <= h)%Qc -> (energy 1 X1 <= energy 1 X0)%Qc).
Proof.
  intros H. specialize (H (fun _ _ => q (-3)) (fun _ x => Ret (map (fun v => q (-3) * v)%Qc x)) (q 4) (qc 1 4) 0%Qc (q 4) [q 1] [q (-2)] [q (-3)] [q 6]).
  apply (Qcle_not_lt (energy 1 [q (-2)]) (energy 1 [q 1])); [apply H|vm_compute; reflexivity].
  - intros t x L. exists (map (fun v => q (-3) * v)%Qc x). split; [reflexivity|]. split; [rewrite map_length; exact L|]. intros j Hj. destruct x as [|a [|? x]]; try discriminate L.
    destruct j; [|lia]. cbn [qsum]. unfold cmp_. cbn [nth map]. ring.
  - reflexivity.
  - reflexivity.
  - reflexivity.
  - split; [reflexivity|]. split; [intros i Hi; lia|]. intros [|i] Hi; [|lia]. apply Qc_is_canon. vm_compute. reflexivity.
  - intros x. cbn [qsum]. generalize (x 0). intros a. unfold q. assert (0 <= a * a)%Qc by (destruct (Qclt_le_dec a 0); qcnra).
    replace (0 + a * (0 + qc (-3) 1 * a))%Qc with (qc (-3) 1 * (a * a))%Qc by ring. revert H0. generalize (a * a)%Qc. intros. qcnra.
  - vm_compute. discriminate.
Qed.

(** * The undamped oscillator as a linear system *)
Definition osc2 (w : bool) (t : Qc) (x : list Qc) : Outcome (list Qc) := match x with [u; v] => Ret [v; (- u)%Qc] | _ => Throw end.
Definition A2 (i j : nat) : Qc := match i, j with 0, 1 => 1%Qc | 1, 0 => (- (1))%Qc | _, _ => 0%Qc end.
Lemma osc2_second w : second_order 1 0 (osc2 w).
Proof. intros t x L. destruct x as [|u [|v [|? x]]]; try discriminate L. eexists. split; [reflexivity|]. split; [reflexivity|]. intros [|i] Hi; [reflexivity|lia]. Qed.
Lemma osc2_linear w : linear_rhs 2 A2 (fun _ _ => 0%Qc) (osc2 w).
Proof.
  intros t x L. destruct x as [|u [|v [|? x]]]; try discriminate L. eexists. split; [reflexivity|]. split; [reflexivity|].
  intros [|[|j]] Hj; [| |lia]; cbn [qsum]; unfold cmp_, A2; cbn [nth]; ring.
Qed.
Lemma A2_conservative : conservative 2 A2.
Proof. intros x. cbn [qsum]. unfold A2. ring. Qed.
Lemma A2_dissipative : dissipative 2 A2.
Proof. intros x. rewrite (A2_conservative x). apply Qcle_refl. Qed.
Definition dx0 : Qc := qc 1 100.
Definition lit0 : ls_lit QcNum := mkLit (N:=QcNum) (qc 1 10000) (qc 1 2) (q (-1)).
Definition est0 : sest QcNum := mkEst (N:=QcNum) (qc 1 1000) (qc 1 1000) (q 0) (q 0) [] 0%Qc 0%Qc.
Definition perf0 : perf QcNum (S:=LUModel.lu) := mkPerf (N:=QcNum) [] [] false 0%Qc est0 lu_empty.
Definition c2 : icfg QcNum bool unit := mkIcfg (N:=QcNum) (q 1) 1 0 osc2 (fun _ _ w => Ret w) None None 1.
Definition s2 (al : Qc) : ist QcNum bool unit (perf QcNum (S:=LUModel.lu)) :=
  i_set (N:=QcNum) 0%Qc [q 1; q 0] false (mkI (N:=QcNum) (mkEM (N:=QcNum) al 0%Qc 0%Qc [] [] false) false perf0 tt true).
Definition nw2 := plain_newton (N:=QcNum) (simple_dd dx0 None) lit0 3 10.
Definition ishow (o : option (ist QcNum bool unit (perf QcNum (S:=LUModel.lu)))) : option (Q * list Q) := option_map (fun s => (this (em_t (i_map s)), map this (em_x (i_map s)))) o.
(** trapezoidal rule and implicit Euler *)
Example C41_trapezoidal_case : ishow (i_steps no_events nw2 c2 2 (s2 (qc 1 2))) = Some (2%Q, [(- 7 # 25)%Q; (- 24 # 25)%Q]).
Proof. vm_compute. reflexivity. Qed.
(** initial guesses of three steps: the first with a hard reset; none after a soft setInitialState *)
Definition sp2 (soft : bool) : ist QcNum bool unit (perf QcNum (S:=LUModel.lu) * list bool) := i_set (N:=QcNum) 0%Qc [q 1; q 0] soft (mkI (N:=QcNum) (mkEM (N:=QcNum) (q 1) 0%Qc 0%Qc [] [] false) false (perf0, []) tt true).
Example C41_hard_once_case : option_map (fun s => snd (i_nw s)) (i_steps no_events (spy nw2) c2 3 (sp2 false)) = Some [true; false; false] /\
  option_map (fun s => snd (i_nw s)) (i_steps no_events (spy nw2) c2 3 (sp2 true)) = Some [false; false; false].
Proof. split; vm_compute; reflexivity. Qed.
Example C41_implicit_case : ishow (i_steps no_events nw2 c2 2 (s2 (q 1))) = Some (2%Q, [0%Q; (- 1 # 2)%Q]).
Proof. vm_compute. reflexivity. Qed.
Lemma solvable_1 (a : nat -> nat -> Qc) : a 0 0 <> 0%Qc -> solvable_pattern 1 a.
Proof.
  intros NZ. split.
  - intros k Hk x H i Hi. assert (k = 1) by lia. assert (i = 0) by lia. subst. specialize (H 0 ltac:(lia)). cbn [qsum] in H. rewrite Qcplus_0_l in H.
    destruct (Qcmult_integral _ _ H); [contradiction|assumption].
  - split.
    + intros i Hi. assert (i = 0) by lia. subst. split; exists 0; auto.
    + intros r c Hr. lia.
Qed.
(** the conditions of C41_linear_run and C41_linear_stable hold here *)
Example C41_linear_conditions : (forall w, linear_rhs (n_vars c2) A2 (fun _ _ => 0%Qc) (ic_rhs c2 w)) /\ fresh_start c2 (s2 (qc 1 2)) /\
  solvable_pattern (ic_nd c2 + ic_nf c2) (step_matrix (ic_nd c2) (ic_h c2) (em_alpha (i_map (s2 (qc 1 2)))) A2) /\ dissipative (n_vars c2) A2 /\ (forall w, second_order 1 0 (ic_rhs c2 w)).
Proof.
  split; [exact osc2_linear|]. split.
  { split; [reflexivity|]. split; [reflexivity|]. split; [vm_compute; discriminate|]. split; [vm_compute; discriminate|]. apply Qcle_refl. }
  split; [apply solvable_1; vm_compute; discriminate|]. split; [exact A2_dissipative|exact osc2_second].
Qed.
Example C41_stable_case : forall count, exists s', i_steps no_events nw2 c2 count (s2 (qc 1 2)) = Some s' /\ (energy 2 (em_x (i_map s')) <= 1)%Qc.
Proof.
  intros count. destruct C41_linear_conditions as (L & F & SP & DI & SO).
  destruct (C41_linear_stable bool unit c2 A2 (fun _ _ _ => 0%Qc) dx0 lit0 3 10 L (fun _ _ _ => eq_refl) eq_refl eq_refl) with (count := count) (s := s2 (qc 1 2)) as (s' & E & B); try assumption; try lia; auto.
  - vm_compute. discriminate.
  - vm_compute. discriminate.
  - vm_compute. discriminate.
  - vm_compute. discriminate.
  - exists s'. split; [exact E|]. eapply Qcle_trans; [exact B|]. vm_compute. discriminate.
Qed.
(** With variables reordered, three variables, C41_residual applies *)
Definition c3 : icfg QcNum bool unit := mkIcfg (N:=QcNum) (q 1) 1 1 (fun w => osc (q 1)) (fun _ _ w => Ret w) (Some ([1; 0], [0; 1])) None 1.
Definition s3 : ist QcNum bool unit (perf QcNum (S:=LUModel.lu)) := i_set (N:=QcNum) 0%Qc [q 1; q 0; q 2] false (mkI (N:=QcNum) (mkEM (N:=QcNum) (q 1) 0%Qc 0%Qc [] [] false) false perf0 tt true).
Example C41_reordered_case : ishow (i_steps no_events (plain_newton (N:=QcNum) (simple_dd dx0 None) lit0 3 10) (mkIcfg (N:=QcNum) (q 1) 1 1 (fun w => osc (q 1)) (fun _ _ w => Ret w) (Some ([1; 0], [1; 0])) None 1) 1 s3) = Some (1%Q, [(2 # 3)%Q; (- 1 # 3)%Q; (4 # 3)%Q]).
Proof. vm_compute. reflexivity. Qed.
Example C41_residual_conditions : (forall w, good_rhs (N:=QcNum) (n_vars c3) (ic_rhs c3 w)) /\ length (em_x (i_map s3) : list Qc) = n_vars c3.
Proof. split; [|reflexivity]. intros w t x L. destruct (osc_second (q 1) t x L) as (y & E & Ly & _). exists y. auto. Qed.

(** A step that fails: the limit of one iteration is not enough; state and time stay. *)
Example C41_failure_case : (let r := i_step no_events (plain_newton (N:=QcNum) (simple_dd dx0 None) lit0 3 1) c2 (i_set (N:=QcNum) 0%Qc [q 1; q 1] false (s2 (q 1))) in
  (match snd r with IFailed NLimit => true | _ => false end, ishow (Some (fst r)))) = (true, Some (0%Q, [1%Q; 1%Q])).
Proof. vm_compute. reflexivity. Qed.

(** setInitialState tells the event controller nothing; that of the explicit solvers resets it. *)
Theorem C41_resets_events_refuted : ~ (forall (W : Type) (ev : events QcNum W) t x (s : ist QcNum W unit unit), i_w (i_set (N:=QcNum) t x false s) = ev_reset ev (i_w s)).
Proof.
  intros H. specialize (H bool (mkEvents (N:=QcNum) (fun _ => true) (fun _ _ w => Ret w) (fun _ x2 t2 w => Ret (w, mkEvres (N:=QcNum) x2 t2 false None 0%Z))) 0%Qc []
    (mkI (N:=QcNum) m0 true tt tt false)). discriminate H.
Qed.

(** * Components that satisfy i_safe: a solver that accepts its guess if the mapping is zero there *)
Definition check_newton : newton QcNum (list Qc) := mkNewton (N:=QcNum) (S:=list Qc) (fun x _ _ => Ret x)
  (fun g x => if length x =? inSize g then (y <- mapf g x ;; Ret (x, if forallb (fun v => neqb QcNum v (n0 QcNum)) y then NConverged else NLimit)) else Throw) (fun x => x) (fun x => x).
Example C41_defined_conditions : i_safe (no_events (N:=QcNum)) check_newton c3.
Proof.
  split. { intros w t x L. right. destruct (osc_second (q 1) t x L) as (y & E & Ly & _). exists y. auto. }
  split. { discriminate. }
  split. { discriminate. }
  split. { intros o H. inversion H. split; [apply perm_swap|apply Permutation_refl]. }
  split. { discriminate. }
  split.
  { intros g x I O M. cbn [nw_run check_newton]. destruct (length x =? inSize g) eqn:E; [|left; reflexivity]. apply Nat.eqb_eq in E.
    destruct (M x E) as [H|(y & H & Ly)]; rewrite H; cbn [obind]; [left; reflexivity|right]. eexists. eexists. split; [reflexivity|]. intros _. cbn [nw_sol check_newton]. exact (eq_trans E I). }
  split. { discriminate. }
  intros x1 x2 t w L1 L2. right. exists w. eexists. split; [reflexivity|]. exact L2.
Qed.
