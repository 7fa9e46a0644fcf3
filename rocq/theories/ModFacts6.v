From Coq Require Import List Arith Bool ZArith QArith Qcanon Lia Lqa.
From Verif Require Import Base BaseFacts SpModel VecModel VOps MapModel LUModel NewtModel NewtSpec RkModel RkSpec RkFacts3 RkFacts6 ImpModel ImpSpec ImpFacts4 EvModel ModModel ModSpec ModFacts2 ModFacts5.
Import ListNotations.
Local Open Scope nat_scope.

Lemma solvable_one (a : nat -> nat -> Qc) : a 0 0 <> 0%Qc -> solvable_pattern 1 a.
Proof.
  intros NZ. split.
  - intros k Hk x H i Hi. assert (k = 1) by lia. assert (i = 0) by lia. subst. specialize (H 0 ltac:(lia)). cbn [qsum] in H. rewrite Qcplus_0_l in H.
    destruct (Qcmult_integral _ _ H); [contradiction|assumption].
  - split.
    + intros i Hi. assert (i = 0) by lia. subst. split; exists 0; auto.
    + intros r c Hr. lia.
Qed.
Definition Aosc (c : Qc) (i j : nat) : Qc := match i, j with 0, 1 => 1%Qc | 1, 0 => (- c)%Qc | _, _ => 0%Qc end.
Definition gosc (f : Qc) (t : Qc) (i : nat) : Qc := match i with 1 => f | _ => 0%Qc end.
Lemma osc_linear c f : linear_rhs 2 (Aosc c) (gosc f) (osc_rhs (N:=QcNum) c f).
Proof.
  intros t x L. change (nT QcNum) with Qc in *. destruct x as [|y [|v [|? ?]]]; try discriminate. cbn. eexists. split; [reflexivity|]. split; [reflexivity|].
  intros [|[|j]] Hj; [| |lia]; cbn; ring.
Qed.
Lemma osc_alpha c f h al t0 t1 X0 X1 F0 F1 : length X0 = 2 -> osc_rhs (N:=QcNum) c f t0 X0 = Ret F0 -> osc_rhs (N:=QcNum) c f t1 X1 = Ret F1 -> alpha_update 1 0 h al X0 F0 X1 F1 ->
  ((1 + c * (h * al * (h * al))) * osc_energy c f X1 = (1 + c * (h * (1 - al) * (h * (1 - al)))) * osc_energy c f X0)%Qc.
Proof.
  intros L0 E0 E1 [L1 [HP HV]]. destruct (osc_slope c f _ _ _ L0 E0) as [_ S0]. destruct (osc_slope c f _ _ _ L1 E1) as [_ S1].
  pose proof (HP 0 ltac:(lia)) as P0. pose proof (HV 0 ltac:(lia)) as V0. cbn [Nat.add] in P0, V0. rewrite S0, S1 in V0. unfold osc_energy.
  set (y0 := cmp_ X0 0) in *. set (v0 := cmp_ X0 1) in *. set (y1 := cmp_ X1 0) in *. set (v1 := cmp_ X1 1) in *. clearbody y0 v0 y1 v1. clear - P0 V0.
  assert (U : (c * y1 - f - h * al * c * v1 = c * y0 - f + h * (1 - al) * c * v0)%Qc) by (rewrite P0; ring).
  assert (V : (v1 + h * al * (c * y1 - f) = v0 - h * (1 - al) * (c * y0 - f))%Qc) by (rewrite V0 at 1; ring).
  transitivity (c * ((v1 + h * al * (c * y1 - f)) * (v1 + h * al * (c * y1 - f))) + (c * y1 - f - h * al * c * v1) * (c * y1 - f - h * al * c * v1))%Qc; [ring|].
  rewrite U, V. ring.
Qed.

Section Solver.
Context {W P : Type} (cf : icfg QcNum W P) (dx : Qc) (lit : ls_lit QcNum) (mt limit : nat).
Hypothesis BS : forall t x w, ic_before cf t x w = Ret w.
Hypothesis NO : ic_ord cf = None.
Hypothesis NP : ic_pred cf = None.
Hypothesis DX : dx <> 0%Qc.
Hypothesis LE : (l_eta lit <= 1)%Qc.
Hypothesis MT : 0 < mt.
Hypothesis LM : 2 <= limit.
Notation nw := (plain_newton (N:=QcNum) (simple_dd dx None) lit mt limit).
Notation S_ := (perf QcNum (S:=LUModel.lu)).

Lemma osc_implicit c f : ic_nd cf = 1 -> ic_nf cf = 0 -> (forall w t x, ic_rhs cf w t x = osc_rhs (N:=QcNum) c f t x) ->
  forall count (s : ist QcNum W P S_), fresh_start cf s -> (1 + c * (ic_h cf * em_alpha (i_map s) * (ic_h cf * em_alpha (i_map s))) <> 0)%Qc ->
  exists s', i_steps no_events nw cf count s = Some s' /\ em_t (i_map s') = (em_t (i_map s) + qn count * ic_h cf)%Qc /\
    (qpow (1 + c * (ic_h cf * em_alpha (i_map s) * (ic_h cf * em_alpha (i_map s)))) count * osc_energy c f (em_x (i_map s')) =
     qpow (1 + c * (ic_h cf * (1 - em_alpha (i_map s)) * (ic_h cf * (1 - em_alpha (i_map s))))) count * osc_energy c f (em_x (i_map s)))%Qc.
Proof.
  intros ND NF RH count s FS NZ.
  assert (LR : forall w, linear_rhs (n_vars cf) (Aosc c) (gosc f) (ic_rhs cf w)).
  { intros w. unfold n_vars. rewrite ND, NF. intros t x L. destruct (osc_linear c f t x L) as [y Hy]. exists y. rewrite RH. exact Hy. }
  assert (SPA : forall al, (1 + c * (ic_h cf * al * (ic_h cf * al)) <> 0)%Qc -> solvable_pattern (ic_nd cf + ic_nf cf) (step_matrix (ic_nd cf) (ic_h cf) al (Aosc c))).
  { intros al NA. rewrite ND, NF. apply solvable_one. unfold step_matrix, Aosc. cbn. intros Z. apply NA. rewrite <- Z. change (nT QcNum) with Qc in *. ring. }
  assert (OK : lin_ok cf s) by (apply fresh_ok; assumption). clear FS. set (al := em_alpha (i_map s)) in *. assert (EA : em_alpha (i_map s) = al) by reflexivity. clearbody al. revert s OK EA.
  induction count as [|k IK]; intros s OK EA.
  - exists s. split; [reflexivity|]. rewrite qn_0. split; [assert (Q : forall a b : Qc, a = (a + 0 * b)%Qc) by (intros; ring); exact (Q _ _)|reflexivity].
  - assert (SP : solvable_pattern (ic_nd cf + ic_nf cf) (step_matrix (ic_nd cf) (ic_h cf) (em_alpha (i_map s)) (Aosc c))) by (rewrite EA; apply SPA; assumption).
    destruct (linear_step cf (Aosc c) (fun _ => gosc f) dx lit mt limit LR BS NO NP DX LE MT LM s OK SP) as (s1 & a & F0 & F1 & E1 & OK1 & T1 & A1 & W1 & EF0 & EF1 & AU).
    destruct (IK s1 OK1 ltac:(congruence)) as (s' & E' & T' & EN). exists s'. cbn [i_steps]. rewrite E1. split; [assumption|]. split.
    + rewrite T', T1, qn_S. assert (Q : forall a b q : Qc, (a + b + q * b = a + (q + 1) * b)%Qc) by (intros; ring). exact (Q _ _ _).
    + rewrite RH in EF0, EF1. rewrite ND, NF in AU. rewrite EA in AU. assert (L0 : length (em_x (i_map s) : list Qc) = 2) by (destruct OK as [L _]; unfold n_vars in L; rewrite ND, NF in L; exact L).
      pose proof (osc_alpha c f _ _ _ _ _ _ _ _ L0 EF0 EF1 AU) as ST. cbn [qpow].
      set (p := (1 + c * (ic_h cf * al * (ic_h cf * al)))%Qc) in *. set (q := (1 + c * (ic_h cf * (1 - al) * (ic_h cf * (1 - al))))%Qc) in *.
      transitivity (p * (qpow p k * osc_energy c f (em_x (i_map s'))))%Qc; [ring|]. rewrite EN.
      transitivity (qpow q k * (p * osc_energy c f (em_x (i_map s1))))%Qc; [ring|]. rewrite ST. ring.
Qed.
End Solver.
