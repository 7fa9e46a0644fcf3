From Coq Require Import List Arith Bool ZArith QArith Qcanon Lia Lqa.
From Verif Require Import Base BaseFacts SpModel VecModel VOps MapModel LUModel NewtModel NewtSpec RkModel RkSpec RkFacts3 RkFacts6 ImpModel ImpSpec ImpFacts4 EvModel ModModel ModSpec ModFacts2 ModFacts5 ModFacts6.
Import ListNotations.
Local Open Scope nat_scope.

Section Stiff.
Context (cosine : Qc -> Qc) (a h : Qc).
Notation rhs := (stiff_rhs (N:=QcNum) cosine a).
Lemma stiff_good : good_rhs (N:=QcNum) 1 rhs.
Proof. intros t x L. change (nT QcNum) with Qc in *. destruct x as [|y [|? ?]]; try discriminate. cbn. eexists. split; reflexivity. Qed.
Lemma stiff_slope t x k : length x = 1 -> rhs t x = Ret k -> cmp_ k 0 = (- a * (cmp_ x 0 - cosine t))%Qc.
Proof. intros L E. change (nT QcNum) with Qc in *. destruct x as [|y [|? ?]]; try discriminate. cbn in E. injection E as <-. reflexivity. Qed.

Lemma stiff_euler t x y t1 x1 y1 : length x = 1 -> length y = 1 -> textbook_step tab_euler 1 1 rhs h (t, x) (t1, x1) -> textbook_step tab_euler 1 1 rhs h (t, y) (t1, y1) ->
  (cmp_ x1 0 - cmp_ y1 0 = (1 - h * a) * (cmp_ x 0 - cmp_ y 0))%Qc.
Proof.
  intros Lx Ly [_ [ev [k [[EV [_ ST]] [Lx' RS]]]]] [_ [ev' [k' [[EV' [_ ST']] [Ly' RS']]]]]. cbn [fst snd] in *.
  destruct (ST 0 ltac:(lia)) as [a0 [_ [E0 [L0 F0]]]]. destruct (ST' 0 ltac:(lia)) as [b0 [_ [E0' [L0' F0']]]].
  pose proof (stiff_slope _ _ _ L0 E0) as K. pose proof (stiff_slope _ _ _ L0' E0') as K'.
  pose proof (F0 0 ltac:(lia)) as A0. pose proof (F0' 0 ltac:(lia)) as B0. pose proof (RS 0 ltac:(lia)) as R0. pose proof (RS' 0 ltac:(lia)) as R0'. cbn [qsum] in *.
  change (B_ tab_euler 1 0 0) with (qc 1 1) in *. assert (Q1 : qc 1 1 = 1%Qc) by (apply Qc_is_canon; reflexivity).
  rewrite R0, R0', K, K', A0, B0, Q1. change (nT QcNum) with Qc in *. ring.
Qed.
Lemma stiff_rk4 t x y t1 x1 y1 : length x = 1 -> length y = 1 -> textbook_step tab_rk4 4 1 rhs h (t, x) (t1, x1) -> textbook_step tab_rk4 4 1 rhs h (t, y) (t1, y1) ->
  (cmp_ x1 0 - cmp_ y1 0 = (1 - h * a + h * a * (h * a) / qc 2 1 - h * a * (h * a) * (h * a) / qc 6 1 + h * a * (h * a) * (h * a * (h * a)) / qc 24 1) * (cmp_ x 0 - cmp_ y 0))%Qc.
Proof.
  intros Lx Ly [_ [ev [k [[EV [_ ST]] [Lx' RS]]]]] [_ [ev' [k' [[EV' [_ ST']] [Ly' RS']]]]]. cbn [fst snd] in *.
  assert (Q1 : qc 1 1 = 1%Qc) by (apply Qc_is_canon; reflexivity). assert (Q2 : qc 1 2 = (1 / (1 + 1))%Qc) by (apply Qc_is_canon; reflexivity).
  assert (Q3 : qc 1 3 = (1 / (1 + 1 + 1))%Qc) by (apply Qc_is_canon; reflexivity). assert (Q6 : qc 1 6 = (1 / ((1 + 1) * (1 + 1 + 1)))%Qc) by (apply Qc_is_canon; reflexivity).
  assert (SL : forall i, i < 4 -> exists u v c0, cmp_ (nth i k []) 0 = (- a * (u - c0))%Qc /\ cmp_ (nth i k' []) 0 = (- a * (v - c0))%Qc /\
     u = (cmp_ x 0 + h * qsum i (fun j => A_ tab_rk4 i j * cmp_ (nth j k []) 0))%Qc /\ v = (cmp_ y 0 + h * qsum i (fun j => A_ tab_rk4 i j * cmp_ (nth j k' []) 0))%Qc).
  { intros i Hi. destruct (ST i Hi) as [ai [N1 [E1 [L1 F1]]]]. destruct (ST' i Hi) as [bi [N1' [E1' [L1' F1']]]].
    pose proof (stiff_slope _ _ _ L1 E1) as K. pose proof (stiff_slope _ _ _ L1' E1') as K'. exists (cmp_ ai 0), (cmp_ bi 0). eexists. split; [exact K|]. split; [exact K'|].
    rewrite (F1 0 ltac:(lia)), (F1' 0 ltac:(lia)). split; reflexivity || (change (nT QcNum) with Qc in *; ring). }
  destruct (SL 0 ltac:(lia)) as (u0 & v0 & c0 & K0 & K0' & U0 & V0). destruct (SL 1 ltac:(lia)) as (u1 & v1 & c1 & K1 & K1' & U1 & V1).
  destruct (SL 2 ltac:(lia)) as (u2 & v2 & c2 & K2 & K2' & U2 & V2). destruct (SL 3 ltac:(lia)) as (u3 & v3 & c3 & K3 & K3' & U3 & V3).
  pose proof (RS 0 ltac:(lia)) as R0. pose proof (RS' 0 ltac:(lia)) as R0'. clear ST ST' RS RS' SL.
  cbn [qsum] in *. change (A_ tab_rk4 1 0) with (qc 1 2) in *. change (A_ tab_rk4 2 0) with 0%Qc in *. change (A_ tab_rk4 2 1) with (qc 1 2) in *.
  change (A_ tab_rk4 3 0) with 0%Qc in *. change (A_ tab_rk4 3 1) with 0%Qc in *. change (A_ tab_rk4 3 2) with (qc 1 1) in *.
  change (B_ tab_rk4 4 0 0) with (qc 1 6) in *. change (B_ tab_rk4 4 0 1) with (qc 1 3) in *. change (B_ tab_rk4 4 0 2) with (qc 1 3) in *. change (B_ tab_rk4 4 0 3) with (qc 1 6) in *.
  assert (Z2 : qc 2 1 = (1 + 1)%Qc) by (apply Qc_is_canon; reflexivity). assert (Z6 : qc 6 1 = ((1 + 1) * (1 + 1 + 1))%Qc) by (apply Qc_is_canon; reflexivity).
  assert (Z24 : qc 24 1 = ((1 + 1) * (1 + 1) * (1 + 1) * (1 + 1 + 1))%Qc) by (apply Qc_is_canon; reflexivity).
  rewrite R0, R0', K3, K3', U3, V3, K2, K2', U2, V2, K1, K1', U1, V1, K0, K0', U0, V0, Q1, Q2, Q3, Q6, Z2, Z6, Z24. field. repeat split; discriminate.
Qed.
Lemma stiff_history co stages q : wf_table co stages 1 -> co_last co = (-1)%Z ->
  (forall t x y t1 x1 y1, length x = 1 -> length y = 1 -> textbook_step co stages 1 rhs h (t, x) (t1, x1) -> textbook_step co stages 1 rhs h (t, y) (t1, y1) ->
    (cmp_ x1 0 - cmp_ y1 0 = q * (cmp_ x 0 - cmp_ y 0))%Qc) ->
  forall (W : Type) t0 x0 y0 (s0 r0 : rkst QcNum W) count, length x0 = 1 -> length y0 = 1 ->
  exists s r ps pr, rk_steps (N:=QcNum) no_events (fun _ => rhs) co 1 h count (rk_set (N:=QcNum) no_events t0 x0 s0) = Ret (s, ps) /\
    rk_steps (N:=QcNum) no_events (fun _ => rhs) co 1 h count (rk_set (N:=QcNum) no_events t0 y0 r0) = Ret (r, pr) /\
    rk_t s = (t0 + qn count * h)%Qc /\ rk_t r = (t0 + qn count * h)%Qc /\ (cmp_ (rk_x s) 0 - cmp_ (rk_x r) 0 = qpow q count * (cmp_ x0 0 - cmp_ y0 0))%Qc.
Proof.
  intros WF LL ST W t0 x0 y0 s0 r0 count Lx Ly.
  destruct (fixed_history W (fun _ => rhs) co stages 1 h WF LL (rk_w s0) stiff_good t0 x0 s0 count eq_refl Lx) as [s [ps [tx [E [_ [T0 [TC [TT TS]]]]]]]].
  destruct (fixed_history W (fun _ => rhs) co stages 1 h WF LL (rk_w r0) stiff_good t0 y0 r0 count eq_refl Ly) as [r [pr [ty [E' [_ [T0' [TC' [TT' TS']]]]]]]].
  exists s, r, ps, pr. split; [exact E|]. split; [exact E'|]. split; [exact TT|]. split; [exact TT'|].
  assert (K : forall k, k <= count -> fst (tx k) = fst (ty k) /\ length (snd (tx k)) = 1 /\ length (snd (ty k)) = 1 /\ (cmp_ (snd (tx k)) 0 - cmp_ (snd (ty k)) 0 = qpow q k * (cmp_ x0 0 - cmp_ y0 0))%Qc).
  { induction k as [|k IK]; intros Hk; [rewrite T0, T0'; cbn [fst snd qpow]; repeat split; try assumption; ring|]. destruct (IK ltac:(lia)) as (Fk & Lk & Mk & Ek).
    pose proof (TS k ltac:(lia)) as S1. pose proof (TS' k ltac:(lia)) as S2.
    destruct (tx k) as [tk xk] eqn:EK. destruct (tx (S k)) as [tk' xk'] eqn:EK'. destruct (ty k) as [uk yk] eqn:FK. destruct (ty (S k)) as [uk' yk'] eqn:FK'. cbn [fst snd] in *. subst uk.
    assert (tk' = uk') by (destruct S1 as [e1 _], S2 as [e2 _]; cbn [fst] in *; congruence). subst uk'.
    split; [reflexivity|]. split; [destruct S1 as [_ [? [? [_ [L' _]]]]]; exact L'|]. split; [destruct S2 as [_ [? [? [_ [L' _]]]]]; exact L'|].
    rewrite (ST _ _ _ _ _ _ Lk Mk S1 S2), Ek. cbn [qpow]. ring. }
  destruct (K count ltac:(lia)) as (_ & _ & _ & Ec). rewrite TC, TC' in *. exact Ec.
Qed.
End Stiff.

Definition Ast (a : Qc) (i j : nat) : Qc := (- a)%Qc.
Lemma stiff_linear cosine a : linear_rhs 1 (Ast a) (fun t _ => (a * cosine t)%Qc) (stiff_rhs (N:=QcNum) cosine a).
Proof.
  intros t x L. change (nT QcNum) with Qc in *. destruct x as [|y [|? ?]]; try discriminate. cbn. eexists. split; [reflexivity|]. split; [reflexivity|].
  intros [|j] Hj; [|lia]; unfold Ast; cbn; ring.
Qed.
Lemma alpha_one cosine a h al t0 t1 X0 X1 F0 F1 : length X0 = 1 -> stiff_rhs (N:=QcNum) cosine a t0 X0 = Ret F0 -> stiff_rhs (N:=QcNum) cosine a t1 X1 = Ret F1 -> alpha_update 0 1 h al X0 F0 X1 F1 ->
  ((1 + h * al * a) * cmp_ X1 0 = (1 - h * (1 - al) * a) * cmp_ X0 0 + h * ((1 - al) * a * cosine t0 + al * a * cosine t1))%Qc.
Proof.
  intros L0 E0 E1 [L1 [_ HV]]. pose proof (stiff_slope _ _ _ _ _ L0 E0) as S0. pose proof (stiff_slope _ _ _ _ _ L1 E1) as S1.
  pose proof (HV 0 ltac:(lia)) as V0. cbn [Nat.add] in V0. rewrite S0, S1 in V0.
  assert (RR : forall x1 x0 c0 c1 : Qc, x1 = (x0 + h * ((1 - al) * (- a * (x0 - c0)) + al * (- a * (x1 - c1))))%Qc -> ((1 + h * al * a) * x1 = (1 - h * (1 - al) * a) * x0 + h * ((1 - al) * a * c0 + al * a * c1))%Qc).
  { intros x1 x0 c0 c1 Q. transitivity (x1 + h * al * a * x1)%Qc; [ring|]. rewrite Q at 1. ring. }
  exact (RR _ _ _ _ V0).
Qed.

Section Solver.
Context {W P : Type} (cf : icfg QcNum W P) (dx : Qc) (lit : ls_lit QcNum) (mt limit : nat).
Hypothesis BS : forall t x w, ic_before cf t x w = Ret w.
Hypothesis NO : ic_ord cf = None.
Hypothesis NP : ic_pred cf = None.
Hypothesis DX : dx <> 0%Qc.
Hypothesis LE : (l_eta lit <= 1)%Qc.
Hypothesis MT : 0 < mt.
Hypothesis LM : 2 <= limit.
Notation nw := (plain_newton (N:=QcNum) (simple_dd dx None) lit mt limit).
Notation S_ := (perf QcNum (S:=LUModel.lu)).
Lemma stiff_implicit cosine a : ic_nd cf = 0 -> ic_nf cf = 1 -> (forall w t x, ic_rhs cf w t x = stiff_rhs (N:=QcNum) cosine a t x) ->
  forall count (s r : ist QcNum W P S_), fresh_start cf s -> fresh_start cf r -> em_t (i_map r) = em_t (i_map s) -> em_alpha (i_map r) = em_alpha (i_map s) -> (1 + ic_h cf * em_alpha (i_map s) * a <> 0)%Qc ->
  exists s' r', i_steps no_events nw cf count s = Some s' /\ i_steps no_events nw cf count r = Some r' /\ em_t (i_map s') = (em_t (i_map s) + qn count * ic_h cf)%Qc /\ em_t (i_map r') = em_t (i_map s') /\
    (qpow (1 + ic_h cf * em_alpha (i_map s) * a) count * (cmp_ (em_x (i_map s')) 0 - cmp_ (em_x (i_map r')) 0) =
     qpow (1 - ic_h cf * (1 - em_alpha (i_map s)) * a) count * (cmp_ (em_x (i_map s)) 0 - cmp_ (em_x (i_map r)) 0))%Qc.
Proof.
  intros ND NF RH count s r FS FR ET EAL NZ.
  assert (LR : forall w, linear_rhs (n_vars cf) (Ast a) (fun t _ => (a * cosine t)%Qc) (ic_rhs cf w)).
  { intros w. unfold n_vars. rewrite ND, NF. intros t x L. destruct (stiff_linear cosine a t x L) as [y Hy]. exists y. rewrite RH. exact Hy. }
  assert (SPA : forall al, (1 + ic_h cf * al * a <> 0)%Qc -> solvable_pattern (ic_nd cf + ic_nf cf) (step_matrix (ic_nd cf) (ic_h cf) al (Ast a))).
  { intros al NA. rewrite ND, NF. apply solvable_one. unfold step_matrix, Ast. cbn. intros Z. apply NA. rewrite <- Z. change (nT QcNum) with Qc in *. ring. }
  assert (OK : lin_ok cf s) by (apply fresh_ok; assumption). assert (OKr : lin_ok cf r) by (apply fresh_ok; assumption). clear FS FR. set (al := em_alpha (i_map s)) in *. assert (EA : em_alpha (i_map s) = al) by reflexivity. clearbody al.
  revert s r OK OKr ET EA EAL.
  induction count as [|k IK]; intros s r OK OKr ET EA EAL.
  - exists s, r. split; [reflexivity|]. split; [reflexivity|]. rewrite qn_0. split; [assert (Q : forall a b : Qc, a = (a + 0 * b)%Qc) by (intros; ring); exact (Q _ _)|]. split; [assumption|reflexivity].
  - assert (SP : solvable_pattern (ic_nd cf + ic_nf cf) (step_matrix (ic_nd cf) (ic_h cf) (em_alpha (i_map s)) (Ast a))) by (rewrite EA; apply SPA; assumption).
    assert (SR : solvable_pattern (ic_nd cf + ic_nf cf) (step_matrix (ic_nd cf) (ic_h cf) (em_alpha (i_map r)) (Ast a))) by (rewrite EAL; apply SPA; assumption).
    destruct (linear_step cf (Ast a) (fun _ t _ => (a * cosine t)%Qc) dx lit mt limit LR BS NO NP DX LE MT LM s OK SP) as (s1 & m & F0 & F1 & E1 & OK1 & T1 & A1 & W1 & EF0 & EF1 & AU).
    destruct (linear_step cf (Ast a) (fun _ t _ => (a * cosine t)%Qc) dx lit mt limit LR BS NO NP DX LE MT LM r OKr SR) as (r1 & m' & G0 & G1 & E2 & OK2 & T2 & A2 & W2 & EG0 & EG1 & AR).
    destruct (IK s1 r1 OK1 OK2 ltac:(congruence) ltac:(congruence) ltac:(congruence)) as (s' & r' & E' & R' & T' & TR & EN). exists s', r'. cbn [i_steps]. rewrite E1, E2. split; [assumption|]. split; [assumption|]. split; [|split; [assumption|]].
    + rewrite T', T1, qn_S. assert (Q : forall a b q : Qc, (a + b + q * b = a + (q + 1) * b)%Qc) by (intros; ring). exact (Q _ _ _).
    + rewrite RH in EF0, EF1, EG0, EG1. rewrite ND, NF in AU, AR. rewrite EA in AU. rewrite EAL in AR.
      assert (L0 : length (em_x (i_map s) : list Qc) = 1) by (destruct OK as [L _]; unfold n_vars in L; rewrite ND, NF in L; exact L).
      assert (L0' : length (em_x (i_map r) : list Qc) = 1) by (destruct OKr as [L _]; unfold n_vars in L; rewrite ND, NF in L; exact L).
      pose proof (alpha_one _ _ _ _ _ _ _ _ _ _ L0 EF0 EF1 AU) as ST. pose proof (alpha_one _ _ _ _ _ _ _ _ _ _ L0' EG0 EG1 AR) as SU. cbn [qpow].
      rewrite T2, ET, <- T1 in SU. clear - EN ST SU.
      set (x' := cmp_ (em_x (i_map s')) 0) in *. set (y' := cmp_ (em_x (i_map r')) 0) in *. set (x1 := cmp_ (em_x (i_map s1)) 0) in *. set (y1 := cmp_ (em_x (i_map r1)) 0) in *.
      set (x0 := cmp_ (em_x (i_map s)) 0) in *. set (y0 := cmp_ (em_x (i_map r)) 0) in *. change (nT QcNum) with Qc in *.
      assert (RR : forall p q P Q z u v w d : Qc, (P * z = Q * (u - v))%Qc -> (p * u = q * x0 + w)%Qc -> (p * v = q * y0 + d)%Qc -> w = d -> (P * p * z = Q * q * (x0 - y0))%Qc).
      { intros p q PP QQ z u v w d H1 H2 H3 ->. transitivity (p * (PP * z))%Qc; [ring|]. rewrite H1. transitivity (QQ * (p * u - p * v))%Qc; [ring|]. rewrite H2, H3. ring. }
      assert (R2 := RR _ _ _ _ _ _ _ _ _ EN ST SU eq_refl). first [exact R2 | (etransitivity; [|etransitivity; [exact R2|]]; ring)].
Qed.
End Solver.

Lemma run_euler c f h (W : Type) t0 x0 (s0 : rkst QcNum W) count : length x0 = 2 ->
  exists s' posts, rk_steps (N:=QcNum) no_events (fun _ => osc_rhs (N:=QcNum) c f) tab_euler 2 h count (rk_set (N:=QcNum) no_events t0 x0 s0) = Ret (s', posts) /\
    length (rk_x s') = 2 /\ rk_t s' = (t0 + qn count * h)%Qc /\ osc_energy c f (rk_x s') = (qpow (1 + c * (h * h)) count * osc_energy c f x0)%Qc.
Proof. exact (history_energy c f h tab_euler 1 _ wf_euler eq_refl (fun t x t' x' => osc_euler c f h t x t' x') W t0 x0 s0 count). Qed.
Lemma run_rk4 c f h (W : Type) t0 x0 (s0 : rkst QcNum W) count : length x0 = 2 ->
  exists s' posts, rk_steps (N:=QcNum) no_events (fun _ => osc_rhs (N:=QcNum) c f) tab_rk4 2 h count (rk_set (N:=QcNum) no_events t0 x0 s0) = Ret (s', posts) /\
    length (rk_x s') = 2 /\ rk_t s' = (t0 + qn count * h)%Qc /\ osc_energy c f (rk_x s') = (qpow (rk4_factor c h) count * osc_energy c f x0)%Qc.
Proof. exact (history_energy c f h tab_rk4 4 _ wf_rk4 eq_refl (fun t x t' x' => osc_rk4 c f h t x t' x') W t0 x0 s0 count). Qed.
Lemma stiff_run_euler cosine a h (W : Type) t0 x0 y0 (s0 r0 : rkst QcNum W) count : length x0 = 1 -> length y0 = 1 ->
  exists s r ps pr, rk_steps (N:=QcNum) no_events (fun _ => stiff_rhs (N:=QcNum) cosine a) tab_euler 1 h count (rk_set (N:=QcNum) no_events t0 x0 s0) = Ret (s, ps) /\
    rk_steps (N:=QcNum) no_events (fun _ => stiff_rhs (N:=QcNum) cosine a) tab_euler 1 h count (rk_set (N:=QcNum) no_events t0 y0 r0) = Ret (r, pr) /\
    rk_t s = (t0 + qn count * h)%Qc /\ rk_t r = (t0 + qn count * h)%Qc /\ (cmp_ (rk_x s) 0 - cmp_ (rk_x r) 0 = qpow (1 - h * a) count * (cmp_ x0 0 - cmp_ y0 0))%Qc.
Proof. exact (stiff_history cosine a h tab_euler 1 _ wf_euler eq_refl (stiff_euler cosine a h) W t0 x0 y0 s0 r0 count). Qed.
Lemma stiff_run_rk4 cosine a h (W : Type) t0 x0 y0 (s0 r0 : rkst QcNum W) count : length x0 = 1 -> length y0 = 1 ->
  exists s r ps pr, rk_steps (N:=QcNum) no_events (fun _ => stiff_rhs (N:=QcNum) cosine a) tab_rk4 1 h count (rk_set (N:=QcNum) no_events t0 x0 s0) = Ret (s, ps) /\
    rk_steps (N:=QcNum) no_events (fun _ => stiff_rhs (N:=QcNum) cosine a) tab_rk4 1 h count (rk_set (N:=QcNum) no_events t0 y0 r0) = Ret (r, pr) /\
    rk_t s = (t0 + qn count * h)%Qc /\ rk_t r = (t0 + qn count * h)%Qc /\ (cmp_ (rk_x s) 0 - cmp_ (rk_x r) 0 = qpow (rk4_decay a h) count * (cmp_ x0 0 - cmp_ y0 0))%Qc.
Proof. exact (stiff_history cosine a h tab_rk4 4 (rk4_decay a h) wf_rk4 eq_refl (stiff_rk4 cosine a h) W t0 x0 y0 s0 r0 count). Qed.

Lemma qpow_pos p n : (0 < p)%Qc -> (0 < qpow p n)%Qc.
Proof. intros P. induction n as [|n I]; cbn [qpow]; [reflexivity|]. generalize dependent (qpow p n). intros; qcnra. Qed.
Lemma qpow_sq p q n : (0 < p)%Qc -> (q * q <= p * p)%Qc -> (qpow q n * qpow q n <= qpow p n * qpow p n)%Qc.
Proof.
  intros P Q. induction n as [|n I]; cbn [qpow]; [apply Qcle_refl|]. pose proof (sq_nonneg q) as S1. pose proof (sq_nonneg (qpow p n)) as S2.
  replace (q * qpow q n * (q * qpow q n))%Qc with (q * q * (qpow q n * qpow q n))%Qc by ring. replace (p * qpow p n * (p * qpow p n))%Qc with (p * p * (qpow p n * qpow p n))%Qc by ring.
  clear P. generalize dependent (qpow q n * qpow q n)%Qc. generalize dependent (qpow p n * qpow p n)%Qc. generalize dependent (q * q)%Qc. generalize dependent (p * p)%Qc. intros. qcnra.
Qed.
Lemma abs_le_sq x y : (x * x <= y * y)%Qc -> (Qcabs x <= Qcabs y)%Qc.
Proof. intros H. unfold Qcabs. destruct (Qcltb x 0) eqn:A, (Qcltb y 0) eqn:B; try apply Qcltb_lt in A; try apply Qcltb_lt in B; try apply Qcltb_ge in A; try apply Qcltb_ge in B; qcnra. Qed.
Lemma contract p q n x y : (0 < p)%Qc -> (q <= p)%Qc -> (- p <= q)%Qc -> (qpow p n * x = qpow q n * y)%Qc -> (Qcabs x <= Qcabs y)%Qc.
Proof.
  intros P Q1 Q2 E. apply abs_le_sq. assert (QQ : (q * q <= p * p)%Qc) by (clear - P Q1 Q2; qcnra). pose proof (qpow_sq p q n P QQ) as S. pose proof (qpow_pos p n P) as PP. clear P Q1 Q2 QQ.
  generalize dependent (qpow p n). intros u E S U. generalize dependent (qpow q n). intros w E S.
  apply Qcnot_lt_le. intro C. assert (A : (u * u * (x * x) = w * w * (y * y))%Qc) by (replace (u * u * (x * x))%Qc with (u * x * (u * x))%Qc by ring; rewrite E; ring).
  clear E. pose proof (sq_nonneg y) as Y. assert (UU : (0 < u * u)%Qc) by qcnra. clear U. generalize dependent (x * x)%Qc. generalize dependent (y * y)%Qc. generalize dependent (u * u)%Qc. generalize dependent (w * w)%Qc. intros. qcnra.
Qed.
Lemma factors z al : (0 <= z)%Qc -> (1 <= al + al)%Qc -> (0 < 1 + al * z)%Qc /\ (1 - (1 - al) * z <= 1 + al * z)%Qc /\ (- (1 + al * z) <= 1 - (1 - al) * z)%Qc.
Proof. intros. repeat split; qcnra. Qed.
Section Solver2.
Context {W P : Type} (cf : icfg QcNum W P) (dx : Qc) (lit : ls_lit QcNum) (mt limit : nat).
Hypothesis BS : forall t x w, ic_before cf t x w = Ret w.
Hypothesis NO : ic_ord cf = None.
Hypothesis NP : ic_pred cf = None.
Hypothesis DX : dx <> 0%Qc.
Hypothesis LE : (l_eta lit <= 1)%Qc.
Hypothesis MT : 0 < mt.
Hypothesis LM : 2 <= limit.
Notation nw := (plain_newton (N:=QcNum) (simple_dd dx None) lit mt limit).
Notation S_ := (perf QcNum (S:=LUModel.lu)).
Lemma stiff_contracts cosine a : ic_nd cf = 0 -> ic_nf cf = 1 -> (forall w t x, ic_rhs cf w t x = stiff_rhs (N:=QcNum) cosine a t x) -> (0 <= ic_h cf * a)%Qc ->
  forall count (s r s' r' : ist QcNum W P S_), fresh_start cf s -> fresh_start cf r -> em_t (i_map r) = em_t (i_map s) -> em_alpha (i_map r) = em_alpha (i_map s) -> (1 <= em_alpha (i_map s) + em_alpha (i_map s))%Qc ->
  i_steps no_events nw cf count s = Some s' -> i_steps no_events nw cf count r = Some r' ->
  (Qcabs (cmp_ (em_x (i_map s')) 0 - cmp_ (em_x (i_map r')) 0) <= Qcabs (cmp_ (em_x (i_map s)) 0 - cmp_ (em_x (i_map r)) 0))%Qc.
Proof.
  intros ND NF RH Z count s r s' r' FS FR ET EA AL E1 E2. destruct (factors _ _ Z AL) as (F1 & F2 & F3).
  assert (Q1 : forall al h u : Qc, (1 + al * (h * u) = 1 + h * al * u)%Qc) by (intros; ring). assert (Q2 : forall al h u : Qc, (1 - (1 - al) * (h * u) = 1 - h * (1 - al) * u)%Qc) by (intros; ring).
  rewrite Q1 in F1, F2, F3. rewrite Q2 in F2, F3.
  assert (NZ : (1 + ic_h cf * em_alpha (i_map s) * a <> 0)%Qc) by (intro C; apply (Qclt_not_le _ _ F1); rewrite <- C; apply Qcle_refl).
  destruct (stiff_implicit cf dx lit mt limit BS NO NP DX LE MT LM cosine a ND NF RH count s r FS FR ET EA NZ) as (s1 & r1 & G1 & G2 & _ & _ & H).
  rewrite E1 in G1. rewrite E2 in G2. injection G1 as <-. injection G2 as <-. exact (contract _ _ _ _ _ F1 F2 F3 H).
Qed.
Lemma osc_conserves c f : ic_nd cf = 1 -> ic_nf cf = 0 -> (forall w t x, ic_rhs cf w t x = osc_rhs (N:=QcNum) c f t x) -> (0 <= c)%Qc ->
  forall count (s s' : ist QcNum W P S_), fresh_start cf s -> em_alpha (i_map s) = qc 1 2 -> i_steps no_events nw cf count s = Some s' -> osc_energy c f (em_x (i_map s')) = osc_energy c f (em_x (i_map s)).
Proof.
  intros ND NF RH C count s s' FS AL E. pose proof (osc_implicit cf dx lit mt limit BS NO NP DX LE MT LM c f ND NF RH count s FS) as H. rewrite AL in H.
  assert (HF : (1 - qc 1 2)%Qc = qc 1 2) by (apply Qc_is_canon; reflexivity). rewrite HF in H.
  set (u := (ic_h cf * qc 1 2)%Qc) in *. assert (F1 : (0 < 1 + c * (u * u))%Qc) by (clear - C; pose proof (sq_nonneg u); generalize dependent (u * u)%Qc; intros; qcnra).
  destruct H as (s1 & E1 & _ & EN); [intro Z; rewrite Z in F1; discriminate|]. rewrite E in E1. injection E1 as <-. pose proof (qpow_pos _ count F1) as PP.
  assert (NZ : qpow (1 + c * (u * u)) count <> 0%Qc) by (intro Z; rewrite Z in PP; discriminate). assert (RR : forall p x y : Qc, p <> 0%Qc -> (p * x = p * y)%Qc -> x = y).
  { intros p x y N0 Q. transitivity (p * x / p)%Qc; [field; assumption|]. rewrite Q. field. assumption. }
  exact (RR _ _ _ NZ EN).
Qed.
End Solver2.
