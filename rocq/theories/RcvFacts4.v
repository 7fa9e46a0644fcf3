(** RcvFacts4.v - small steps of the Rosenbrock solvers succeed. *)
From Coq Require Import List Arith Bool Lia ZArith QArith Qcanon Reals Lra.
From Verif Require Import Base BaseFacts VecModel VOps SMap SpModel SpSpec LUSpec LUModel RkModel RkSpec StepModel RosModel RosSpec RosFacts RosFacts2 RosFacts3 RosFacts4 RosFacts5 RosFacts6 RosFacts7 ConvSpec ConvFacts ConvFacts3 ConvFacts5 HighFacts5 ImcSpec ImcFacts ImcFacts3 XrkFacts7 GraFacts GraFacts2 RcvFacts RcvSpec RcvFacts2.
Import ListNotations.
Local Open Scope R_scope.
Lemma rsum_below L : 0 <= L -> forall k q, rsum k (fun c => if (c <? q)%nat then L else 0) <= INR q * L.
Proof.
  intros L0 k q. assert (P : rsum k (fun c => if (c <? q)%nat then L else 0) = INR (Nat.min k q) * L).
  { induction k as [|k IH]; [cbn; ring|]. cbn [rsum]. rewrite IH. destruct (Nat.ltb_spec k q); [rewrite !Nat.min_l by lia; rewrite S_INR; ring|rewrite !Nat.min_r by lia; ring]. }
  rewrite P. apply Rmult_le_compat_r; [exact L0|]. apply le_INR. lia.
Qed.
Lemma q2r_inj0 a : q2r a = 0 -> a = 0%Qc.
Proof.
  intros E. destruct (Qc_dec a 0) as [[Hl|Hg]|Q]; [| |exact Q]; exfalso.
  - assert (a + - a = 0)%Qc as Z by ring. unfold q2r in E. apply Qreals.eqR_Qeq with (y := 0%Q) in E || (rewrite <- RMicromega.Q2R_0 in E; apply Qreals.eqR_Qeq in E). apply Qclt_not_eq in Hl. apply Hl. apply Qc_is_canon. exact E.
  - unfold q2r in E. rewrite <- RMicromega.Q2R_0 in E. apply Qreals.eqR_Qeq in E. apply Qclt_not_eq in Hg. apply Hg. apply Qc_is_canon. symmetry. exact E.
Qed.
Section Small.
Context (n2 n1 : nat) (L : R).
Hypothesis L0 : 0 <= L.
Definition entries (m : mems QcNum) : Prop := (forall i j, (i < n2 + n1)%nat -> Rabs (q2r (get (obj m 0) (i, j))) <= if (j <? n1)%nat then L else 0) /\
  (forall i j, (i < n2 + n1)%nat -> Rabs (q2r (get (obj m 1) (i, j))) <= if (j <? n2)%nat then L else 0).
Lemma small_nonsingular m hd : entries m -> Rabs (q2r hd) <= 1 -> Rabs (q2r hd) * (1 + INR (2 * n2 + n1) * L) <= / 2 ->
  leading_nonsingular (n2 + n1) (wmat hd (fun i j => get (obj m 0) (i, j)) (fun i j => get (obj m 1) (i, j))).
Proof.
  intros (E1 & E2) HD1 HD2 k Hk x Z cc Hc. apply q2r_inj0. set (J := fun i j => q2r (get (obj m 0) (i, j)) + q2r hd * q2r (get (obj m 1) (i, j))).
  assert (ROW : forall i, (i < k)%nat -> rsum k (fun j => Rabs (J i j)) <= 1 + INR (2 * n2 + n1) * L).
  { intros i Hi. eapply Rle_trans; [apply (rsum_le k _ (fun j => (if (j <? n1)%nat then L else 0) + (if (j <? n2)%nat then L else 0)))|].
    - intros j Hj. unfold J. eapply Rle_trans; [apply Rabs_triang|]. apply Rplus_le_compat; [apply E1; lia|]. rewrite Rabs_mult. eapply Rle_trans; [apply Rmult_le_compat; [apply Rabs_pos|apply Rabs_pos|exact HD1|apply (E2 i j); lia]|]. lra.
    - rewrite ImcFacts2.rsum_plus. pose proof (rsum_below L L0 k n1). pose proof (rsum_below L L0 k n2). pose proof (Rmult_le_pos (INR n2) L (pos_INR _) L0). rewrite plus_INR, mult_INR. cbn [INR]. lra. }
  assert (EQ : forall i, (i < k)%nat -> q2r (x i) = 0 + q2r hd * rsum k (fun j => J i j * q2r (x j))).
  { intros i Hi. specialize (Z i Hi).
    assert (E : qsum k (fun c => wmat hd (fun i j => get (obj m 0) (i, j)) (fun i j => get (obj m 1) (i, j)) i c * x c)%Qc = (x i - hd * qsum k (fun c => (get (obj m 0) (i, c) + hd * get (obj m 1) (i, c)) * x c))%Qc).
    { unfold wmat. rewrite (qsum_ext k _ (fun c => delta i c * x c - hd * ((get (obj m 0) (i, c) + hd * get (obj m 1) (i, c)) * x c))%Qc) by (intros; ring). rewrite qsum_sub, qsum_scale, delta_sum by exact Hi. reflexivity. }
    rewrite E in Z. assert (Q : x i = (0 + hd * qsum k (fun c => (get (obj m 0) (i, c) + hd * get (obj m 1) (i, c)) * x c))%Qc) by (rewrite <- Z; ring). rewrite Q at 1. rewrite q2r_plus, q2r_0, q2r_mult, q2r_sum. f_equal. f_equal. apply rsum_ext.
    intros c _. unfold J. rewrite q2r_mult, q2r_plus, q2r_mult. reflexivity. }
  pose proof (resolvent k J _ ROW (q2r hd) (fun i => q2r (x i)) (fun _ => 0) 0 HD2 ltac:(lra) EQ ltac:(intros; cbv beta; rewrite Rabs_R0; lra) cc Hc) as B. cbv beta in B. destruct (Req_dec (q2r (x cc)) 0) as [Q|Q]; [exact Q|]. pose proof (Rabs_pos_lt _ Q). lra.
Qed.
End Small.
Section Run.
Context {W : Type} (ev : events QcNum W) (c : rcfg W) (f : Qc -> list Qc -> Outcome (list Qc)).
Hypothesis SAFE : r_safe ev c f.
Hypothesis NT : forall x1 x2 t2 w w' e, ev_end ev x1 x2 t2 w = Ret (w', e) -> ev_trunc e = false.
Notation n := (rc_n c).
Context (g : R -> list R -> list R) (L : R).
Hypothesis CR : computes_rhs n f g.
Hypothesis L0 : 0 <= L.
Hypothesis LIP : lipschitz_x n L g.
Hypothesis D0 : rc_d c <> 0%Qc.
Notation n2 := (rc_n2 c).
Notation n1 := (rc_n1 c).
Lemma hard_entries r t x f0 : is_jac n2 n1 f t x f0 r -> length x = n -> f t x = Ret f0 -> entries n2 n1 L (ro_mats r).
Proof.
  intros (_ & _ & C1 & C2) LX EF. split; intros i j Hi; unfold get; [rewrite C1|rewrite C2]; assert (Q : (i <? n2 + n1)%nat = true) by (apply Nat.ltb_lt; exact Hi); rewrite Q; cbn [andb].
  - destruct (Nat.ltb_spec j n1); [|change (Rabs (q2r 0%Qc) <= 0); rewrite q2r_0, Rabs_R0; lra]. rewrite cand_get. apply (difference_small n f g L t x f0 (n2 + i) (n2 + j) CR LIP LX EF); unfold rc_n; lia.
  - destruct (Nat.ltb_spec j n2); [|change (Rabs (q2r 0%Qc) <= 0); rewrite q2r_0, Rabs_R0; lra]. rewrite cand_get. apply (difference_small n f g L t x f0 (n2 + i) j CR LIP LX EF); unfold rc_n; lia.
Qed.
Lemma soft_objects always s s1 : q_inv c f (negb always) s -> q_k s <> 0%nat -> q_init c always s = (s1, Ret tt) -> obj (ro_mats (q_ros s1)) 0 = obj (ro_mats (q_ros s)) 0 /\ obj (ro_mats (q_ros s1)) 1 = obj (ro_mats (q_ros s)) 1.
Proof.
  intros (LX & K) NZ E. destruct K as [(K0 & _)|(K0 & I & A & B & FF)]; [contradiction|]. pose proof SAFE as (_ & G & FW & _). destruct (G (q_t s) (q_x s) LX) as (f0 & EF & LF). revert E.
  unfold q_init. rewrite FW. assert (K1 : (q_k s =? 0) = false) by (apply Nat.eqb_neq; exact NZ). rewrite K1. cbn [orb].
  assert (EO : (if always then f (q_t s) (q_x s) else Ret (q_f0 s)) = Ret f0) by (destruct always; [exact EF|]; rewrite <- EF; symmetry; apply FF; reflexivity).
  change (nT QcNum) with Qc in *. rewrite EO. cbn [rfail q_k].
  destruct (init_soft n2 n1 f (q_t s) (q_x s) f0 (q_h s * rc_d c)%Qc (q_ros s) I) as (r' & E & I' & A' & B' & SJ & _). rewrite E. intros Q. injection Q as <-. cbn [q_ros]. destruct SJ as (O1 & O2 & _). split; assumption.
Qed.
Lemma step_trunc s s1 a : w1_step ev c s = (s1, AAccepted a) -> pa_trunc a = false.
Proof.
  unfold w1_step, qfail. destruct (q_init c true s) as [s0 o]. destruct o; try discriminate. destruct (rc_before _ _ _ _ _); try discriminate. destruct (ev_start _ _ _ _); try discriminate. destruct (w1_next _ _ _ _ _ _); try discriminate.
  destruct (ev_end _ _ _ _ _) as [[w3 er]| |] eqn:E; try discriminate. intros Q. injection Q as _ <-. cbn [pa_trunc]. exact (NT _ _ _ _ _ _ E).
Qed.
(** what the first initialisation computes stays *)
Definition carries (o0 o1 : smat QcNum) (s : rst W) : Prop := forall s1, q_init c true s = (s1, Ret tt) -> obj (ro_mats (q_ros s1)) 0 = o0 /\ obj (ro_mats (q_ros s1)) 1 = o1.
Lemma solvable_small r (o0 o1 : smat QcNum) hd : obj (ro_mats r) 0 = o0 -> obj (ro_mats r) 1 = o1 -> ro_n2 r = n2 -> ro_n1 r = n1 -> entries n2 n1 L (ro_mats r) ->
  stencil_covers (w_stencil (n2 + n1) (fun i j => get o0 (i, j)) (fun i j => get o1 (i, j))) (n2 + n1) ->
  Rabs (q2r hd) <= 1 -> Rabs (q2r hd) * (1 + INR n * L) <= / 2 -> solvable r hd.
Proof.
  intros O0 O1 A B EN ST H1 H2. assert (MM : ro_m r = (n2 + n1)%nat) by (unfold ro_m; rewrite A, B; reflexivity). unfold solvable. rewrite MM. split.
  - exact (small_nonsingular n2 n1 L L0 (ro_mats r) hd EN H1 H2).
  - apply pattern_fill. unfold J1_, J2_. rewrite O0, O1. exact ST.
Qed.
Theorem w1_runs_from (o0 o1 : smat QcNum) l : stencil_covers (w_stencil (n2 + n1) (fun i j => get o0 (i, j)) (fun i j => get o1 (i, j))) (n2 + n1) ->
  (forall i j, (i < n2 + n1)%nat -> Rabs (q2r (get o0 (i, j))) <= if (j <? n1)%nat then L else 0) -> (forall i j, (i < n2 + n1)%nat -> Rabs (q2r (get o1 (i, j))) <= if (j <? n2)%nat then L else 0) ->
  Forall (fun h => 0 < q2r h /\ Rabs (q2r (h * rc_d c)%Qc) <= 1 /\ q2r h * stiffness c L <= / 2) l ->
  forall s, w1_reach ev c s -> (forall h, carries o0 o1 (q_setStep h s)) -> exists s', w1_path ev c s l s'.
Proof.
  intros ST EN0 EN1 FL. induction FL as [|h l (Hh & H1 & H2) FL IH]; intros s RE CA; [exists s; constructor|].
  set (sh := q_setStep h s). assert (REh : w1_reach ev c sh) by (apply w1_size; exact RE). pose proof (w1_reach_inv ev c f SAFE sh REh) as QI.
  assert (NZ : (q_h sh * rc_d c)%Qc <> 0%Qc) by (apply nonzero; assumption).
  destruct (w1_step ev c sh) as [s1 o] eqn:E. destruct (w1_pass ev c f SAFE sh s1 o QI E) as (si & f0 & EI & EF & SJ & KK & Q). destruct (CA h si EI) as (O0 & O1).
  destruct (q_init_ok ev c f SAFE true sh QI) as (si' & f0' & EI' & _ & _ & _ & _ & _ & _ & K1 & _ & I1 & A1 & B1 & _). rewrite EI in EI'. injection EI' as <-.
  assert (SOL : solvable (q_ros si) (q_h sh * rc_d c)%Qc).
  { apply (solvable_small (q_ros si) o0 o1); try assumption.
    - split; [rewrite O0|rewrite O1]; assumption.
    - change (q_h sh) with h. rewrite scaled. rewrite Rabs_right by lra. exact H2. }
  destruct (Q NZ SOL) as (k1 & next & a & EA & _). subst o. destruct (KK a eq_refl) as (QI1 & SM). pose proof (step_trunc sh s1 a E) as TR.
  assert (RE1 : w1_reach ev c s1) by exact (w1_did ev c sh s1 a REh E).
  assert (KN : q_k s1 = n). { revert E. unfold w1_step, qfail. rewrite EI. destruct (rc_before _ _ _ _ _); try discriminate. destruct (ev_start _ _ _ _); try discriminate. destruct (w1_next _ _ _ _ _ _); try discriminate. destruct (ev_end _ _ _ _ _) as [[w3 er]| |]; try discriminate. intros Q2. injection Q2 as <- _. exact K1. }
  assert (NP : (0 < n)%nat) by (destruct SAFE as (P & _); unfold rc_n; lia).
  destruct (IH s1 RE1) as (s' & P).
  { intros h' s2 E2. destruct SM as (_ & _ & SM & _). rewrite <- O0, <- O1, <- SM. assert (QI2 : q_inv c f false (q_setStep h' s1)) by (apply (w1_reach_inv ev c f SAFE); apply w1_size; exact RE1).
    apply (soft_objects true (q_setStep h' s1) s2 QI2); [change (q_k (q_setStep h' s1)) with (q_k s1); rewrite KN; lia|exact E2]. }
  exists s'. apply (w1_resized ev c s h). fold sh. change h with (q_h sh). apply (w1_go ev c sh s1 a l s' E TR); [|exact P]. destruct SM as (M1 & M2 & M3 & _). unfold solvable, ro_m, J1_, J2_ in SOL |- *. rewrite M1, M2, M3. exact SOL.
Qed.
Lemma first_objects always s : q_inv c f (negb always) s -> q_k s = 0%nat -> let r := q_ros (fst (q_init c always s)) in ro_m r = (n2 + n1)%nat /\ entries n2 n1 L (ro_mats r) /\
  forall h s2, q_init c always (q_setStep h s) = (s2, Ret tt) -> obj (ro_mats (q_ros s2)) 0 = obj (ro_mats r) 0 /\ obj (ro_mats (q_ros s2)) 1 = obj (ro_mats r) 1.
Proof.
  intros QI Z r. destruct (q_init_ok ev c f SAFE always s QI) as (si & f0 & EI & EF & _ & _ & _ & _ & _ & K1 & _ & I1 & A1 & B1 & _ & JH & _). specialize (JH Z).
  assert (ER : r = q_ros si) by (unfold r; rewrite EI; reflexivity). destruct QI as (LX & KQ). split; [rewrite ER; unfold ro_m; rewrite A1, B1; reflexivity|]. split; [rewrite ER; exact (hard_entries (q_ros si) _ _ f0 JH LX EF)|].
  (* the Jacobian does not depend on the step size *)
  intros h s2 E2. revert EI E2. unfold q_init. change (q_k (q_setStep h s)) with (q_k s). rewrite Z. cbn [Nat.eqb orb]. pose proof SAFE as (_ & G & FW & _). rewrite FW. change (q_t (q_setStep h s)) with (q_t s). change (q_x (q_setStep h s)) with (q_x s). change (q_f0 (q_setStep h s)) with (q_f0 s). change (q_w (q_setStep h s)) with (q_w s). change (q_ros (q_setStep h s)) with (q_ros s). change (q_h (q_setStep h s)) with h. rewrite FW.
  change (nT QcNum) with Qc in *. rewrite EF. cbn [rfail q_k]. destruct KQ as [(_ & S)|(K0 & _)]; [|assert (NP : (0 < n)%nat) by (destruct SAFE as (P & _); unfold rc_n; lia); lia].
  assert (LF : length f0 = n). { destruct (G (q_t s) (q_x s) LX) as (y & EY & LY). change (nT QcNum) with Qc in *. rewrite EF in EY. injection EY as ->. exact LY. }
  unfold ros_init. set (r1 := mkRos n2 n1 (ro_mats (q_ros s)) (ro_cache (q_ros s)) (ro_lu (q_ros s)) (ro_hd (q_ros s))).
  destruct (ros_build_ok f (q_t s) (q_x s) f0 r1 S G LX LF) as (m & EB & MO & JS). rewrite EB.
  assert (INV : ros_inv (mkRos (ro_n2 r1) (ro_n1 r1) m [] None 0%Qc)) by (split; [exact MO|]; split; [intros e []|]; split; [cbn; lia|]; left; auto).
  destruct (ros_update_ok (q_h s * rc_d c)%Qc _ INV) as (ra & Ea & _ & _ & _ & SJa & _). destruct (ros_update_ok (h * rc_d c)%Qc _ INV) as (rb & Eb & _ & _ & _ & SJb & _). rewrite Ea, Eb.
  intros Qa Qb. injection Qa as Qa. injection Qb as Qb. rewrite ER, <- Qa, <- Qb. cbn [q_ros]. destruct SJa as (Sa & Sb & _). destruct SJb as (Sc & Sd & _). split; congruence.
Qed.
Theorem w1_runs s l : w1_reach ev c s -> q_k s = 0%nat -> let r := q_ros (fst (q_init c true s)) in stencil_covers (w_stencil (ro_m r) (J1_ r) (J2_ r)) (ro_m r) ->
  Forall (fun h => 0 < q2r h /\ Rabs (q2r (h * rc_d c)%Qc) <= 1 /\ q2r h * stiffness c L <= / 2) l -> exists s', w1_path ev c s l s'.
Proof.
  intros RE Z r ST FL. destruct (first_objects true s (w1_reach_inv ev c f SAFE s RE) Z) as (MM & (E0 & E1) & OB). fold r in MM, E0, E1, OB. rewrite MM in ST.
  exact (w1_runs_from (obj (ro_mats r) 0) (obj (ro_mats r) 1) l ST E0 E1 FL s RE OB).
Qed.
(** * SW2(4) without error control *)
Hypothesis NC : rc_nocheck c = true.
Lemma nocheck_accepts b s s' o : sw_attempt ev c b s = (s', o) -> o <> AThrow -> o <> AUb -> exists a, o = AAccepted a /\ pa_trunc a = false.
Proof.
  unfold sw_attempt, qfail. rewrite NC. destruct (if b then q_init c false s else (s, Ret tt)) as [s1 oi]. intros E H1 H2. revert E.
  destruct oi; [|intros Q; injection Q as _ <-; contradiction|intros Q; injection Q as _ <-; contradiction].
  destruct (rc_before _ _ _ _ _); [|intros Q; injection Q as _ <-; contradiction|intros Q; injection Q as _ <-; contradiction].
  destruct (ev_start _ _ _ _); [|intros Q; injection Q as _ <-; contradiction|intros Q; injection Q as _ <-; contradiction].
  destruct (sw_stages _ _ _ _ _ _ _ _) as [[[[r1 k1] k2] next]| |]; [|intros Q; injection Q as _ <-; contradiction|intros Q; injection Q as _ <-; contradiction].
  destruct (rc_rhs _ _ _ _); [|intros Q; injection Q as _ <-; contradiction|intros Q; injection Q as _ <-; contradiction].
  destruct (ev_end _ _ _ _ _) as [[w3 er]| |] eqn:EE; [|intros Q; injection Q as _ <-; contradiction|intros Q; injection Q as _ <-; contradiction].
  pose proof (NT _ _ _ _ _ _ EE) as TR. rewrite TR. cbn [andb]. intros Q. injection Q as _ <-. eexists. split; reflexivity.
Qed.
Definition carries' (o0 o1 : smat QcNum) (s : rst W) : Prop := forall s1, q_init c false s = (s1, Ret tt) -> obj (ro_mats (q_ros s1)) 0 = o0 /\ obj (ro_mats (q_ros s1)) 1 = o1.
Theorem sw_runs_from (o0 o1 : smat QcNum) l : stencil_covers (w_stencil (n2 + n1) (fun i j => get o0 (i, j)) (fun i j => get o1 (i, j))) (n2 + n1) ->
  (forall i j, (i < n2 + n1)%nat -> Rabs (q2r (get o0 (i, j))) <= if (j <? n1)%nat then L else 0) -> (forall i j, (i < n2 + n1)%nat -> Rabs (q2r (get o1 (i, j))) <= if (j <? n2)%nat then L else 0) ->
  Forall (fun h => 0 < q2r h /\ Rabs (q2r (h * rc_d c)%Qc) <= 1 /\ q2r h * stiffness c L <= / 2) l ->
  forall s, sw_reach ev c s -> (forall h, carries' o0 o1 (q_setStep h s)) -> exists s', sw_path ev c s (map (fun h => (h, h)) l) s'.
Proof.
  intros ST EN0 EN1 FL. induction FL as [|h l (Hh & H1 & H2) FL IH]; intros s RE CA; [exists s; constructor|].
  set (sh := q_setStep h s). assert (REh : sw_reach ev c sh) by (apply sw_size; exact RE). pose proof (sw_reach_inv ev c f SAFE sh REh) as QI.
  assert (NZ : (q_h sh * rc_d c)%Qc <> 0%Qc) by (apply nonzero; assumption).
  destruct (init_facts ev c f SAFE false sh QI) as (si & f0 & EI & EF & LF & T1 & X1 & HH1 & F1 & K1 & Q1 & RDY & SJ). destruct (CA h si EI) as (O0 & O1).
  destruct (q_init_ok ev c f SAFE false sh QI) as (si' & f0' & EI' & _ & _ & _ & _ & _ & _ & _ & _ & I1 & A1 & B1 & _). rewrite EI in EI'. injection EI' as <-.
  assert (SOL : solvable (q_ros si) (q_h sh * rc_d c)%Qc).
  { apply (solvable_small (q_ros si) o0 o1); try assumption.
    - split; [rewrite O0|rewrite O1]; assumption.
    - change (q_h sh) with h. rewrite scaled. rewrite Rabs_right by lra. exact H2. }
  destruct (sw_attempt ev c false si) as [s1 o] eqn:E.
  destruct (attempt_ok ev c f SAFE _ si s1 o Q1 K1 (RDY NZ SOL) (or_introl (f_equal (fun z => z * rc_d c)%Qc HH1)) E) as (k1 & k2 & next & _ & SM & RD1 & M).
  destruct (nocheck_accepts false si s1 o E) as (a & -> & TR); [intros ->; exact M|intros ->; exact M|]. destruct M as (QI1 & KN & PA & _).
  assert (ES : sw_step ev c 1 sh = (s1, [a], Some (AAccepted a))) by (rewrite (step_init ev c sh si 1 EI) by lia; cbn [sw_loop]; rewrite E; reflexivity).
  assert (RE1 : sw_reach ev c s1) by exact (sw_did ev c sh 1 s1 [a] a REh ES).
  assert (NP : (0 < n)%nat) by (destruct SAFE as (P & _); unfold rc_n; lia).
  destruct (IH s1 RE1) as (s' & P).
  { intros h' s2 E2. destruct SM as (_ & _ & SM & _). rewrite <- O0, <- O1, <- SM. assert (QI2 : q_inv c f true (q_setStep h' s1)) by (apply (sw_reach_inv ev c f SAFE); apply sw_size; exact RE1).
    apply (soft_objects false (q_setStep h' s1) s2 QI2); [change (q_k (q_setStep h' s1)) with (q_k s1); rewrite KN; lia|exact E2]. }
  exists s'. apply (sw_resized ev c s h). fold sh. cbn [map]. replace (h, h) with (q_h sh, pa_h a) by (rewrite PA, HH1; reflexivity). apply (sw_go ev c sh 1 s1 [a] a _ s' ES TR); [|right; reflexivity|exact P].
  destruct RD1 as (_ & _ & SOL1 & _). exact SOL1.
Qed.
Theorem sw_runs s l : sw_reach ev c s -> q_k s = 0%nat -> let r := q_ros (fst (q_init c false s)) in stencil_covers (w_stencil (ro_m r) (J1_ r) (J2_ r)) (ro_m r) ->
  Forall (fun h => 0 < q2r h /\ Rabs (q2r (h * rc_d c)%Qc) <= 1 /\ q2r h * stiffness c L <= / 2) l -> exists s', sw_path ev c s (map (fun h => (h, h)) l) s'.
Proof.
  intros RE Z r ST FL. destruct (first_objects false s (sw_reach_inv ev c f SAFE s RE) Z) as (MM & (E0 & E1) & OB). fold r in MM, E0, E1, OB. rewrite MM in ST.
  exact (sw_runs_from (obj (ro_mats r) 0) (obj (ro_mats r) 1) l ST E0 E1 FL s RE OB).
Qed.
End Run.
