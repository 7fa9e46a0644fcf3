From Coq Require Import List Arith Bool ZArith QArith Qcanon Lia Lqa.
From Verif Require Import Base BaseFacts VecModel VOps RkModel RkSpec RkFacts RkFacts2 RkFacts3 RkFacts4 RkFacts6 EvModel EvSpec EvFacts3 EvFacts4 ModModel ModSpec ModFacts.
Import ListNotations.
Local Open Scope nat_scope.

(** Runs of steps put together *)
Lemma steps_app {W} (ev : events QcNum W) f co n h a : forall k (s : rkst QcNum W),
  rk_steps (N:=QcNum) ev f co n h (a + k) s = (r <- rk_steps (N:=QcNum) ev f co n h a s ;; q <- rk_steps (N:=QcNum) ev f co n h k (fst r) ;; Ret (fst q, snd r ++ snd q)).
Proof.
  induction a as [|a I]; intros k s.
  - cbn. destruct (rk_steps ev f co n h k s) as [[? ?]| |]; reflexivity.
  - cbn [Nat.add rk_steps]. destruct (rk_step ev f co n h s) as [[[s1 hh] p1]| |]; cbn [obind]; [|reflexivity|reflexivity].
    rewrite I. destruct (rk_steps ev f co n h a s1) as [[s2 l2]| |]; cbn [obind fst snd]; [|reflexivity|reflexivity].
    destruct (rk_steps ev f co n h k s2) as [[s3 l3]| |]; reflexivity.
Qed.

Lemma qn_0 : qn 0 = 0%Qc. Proof. apply Qc_is_canon. reflexivity. Qed.

Lemma Qcmul_nn (a c : Qc) : (0 <= a)%Qc -> (0 <= c)%Qc -> (0 <= a * c)%Qc.
Proof. intros A C. assert (E : (0 * c <= a * c)%Qc) by (apply Qcmult_le_compat_r; assumption). replace (0 * c)%Qc with 0%Qc in E by ring. exact E. Qed.

Section Ball.
Context (b : ball QcNum) (co : coeffs QcNum) (stages : nat) (h : Qc).
Hypothesis WF : wf_table co stages 1.
Hypothesis SC : shortcut_ok co stages.
Hypothesis HP : (0 < h)%Qc.
Notation inv := (inv stages h).
Notation stp := (rk_step (linear_events (ball_model b)) (fun w : ctl QcNum * bool => ball_rhs b (snd w)) co 2 h).
Notation run := (ball_steps b co h).
Notation bstep := (ball_step1 b co stages h WF SC).

Lemma start_inv t0 y0 v0 s0 p : (0 <= y0)%Qc -> snd (rk_w s0) = p -> inv (ball_start b t0 [y0; v0] s0) y0 v0 p.
Proof.
  intros Y P. split; [split; [reflexivity|left; reflexivity]|]. split; [reflexivity|]. split; [assumption|]. split; [assumption|]. left. reflexivity.
Qed.
(** One step from an invariant state: never undefined, keeps the invariant. *)
Lemma step_inv s y v p : inv s y v p -> stp s = Throw \/ exists s' a y' v' p', stp s = Ret (s', rk_h s, a) /\ inv s' y' v' p' /\ (p = true -> p' = true).
Proof.
  intros I. destruct (bstep s y v p I) as [y2 [v2 [_ [s' a E I' _ _ _ _|E _ _ _|s' a th E _ _ _ _ _ _ I' _]]]].
  - right. exists s', a, y2, v2, p. auto.
  - left. assumption.
  - right. unfold after_impact in I'. destruct (Qcltb _ _); [|destruct (Qcltb _ _)]; (eexists; eexists; eexists; eexists; eexists; split; [exact E|]; split; [apply I'; reflexivity|auto]).
Qed.
Lemma run_inv : forall count s y v p, inv s y v p -> run count s = Throw \/ exists s' posts y' v' p', run count s = Ret (s', posts) /\ inv s' y' v' p' /\ (p = true -> p' = true).
Proof.
  induction count as [|c IH]; intros s y v p I.
  - right. exists s, [], y, v, p. auto.
  - unfold ball_steps in *. cbn [rk_steps]. destruct (step_inv s y v p I) as [E|[s1 [a [y1 [v1 [p1 [E [I1 M1]]]]]]]].
    + left. rewrite E. reflexivity.
    + rewrite E. cbn [obind]. destruct (IH s1 y1 v1 p1 I1) as [E2|[s2 [l2 [y2 [v2 [p2 [E2 [I2 M2]]]]]]]]; rewrite E2; cbn [obind fst snd].
      * left. reflexivity.
      * right. eexists. eexists. exists y2, v2, p2. auto.
Qed.
Lemma run_inv_ret count s s' posts y v p : inv s y v p -> run count s = Ret (s', posts) -> exists y' v' p', inv s' y' v' p' /\ (p = true -> p' = true).
Proof.
  intros I E. destruct (run_inv count s y v p I) as [E2|[s2 [l2 [y2 [v2 [p2 [E2 [I2 M2]]]]]]]]; rewrite E in E2; [discriminate|].
  injection E2 as <- <-. exists y2, v2, p2. auto.
Qed.

(** ** Slopes of a step *)
Lemma textbook_ball p t y v y2 v2 : textbook_step co stages 2 (ball_rhs b p) h (t, [y; v]) ((t + h)%Qc, [y2; v2]) ->
  if p then y2 = y /\ v2 = v
  else v2 = (v - h * b_g b * qsum stages (fun s => B_ co stages 0 s))%Qc /\
       y2 = (y + h * v * qsum stages (fun s => B_ co stages 0 s) - h * h * b_g b * qsum stages (fun s => B_ co stages 0 s * qsum s (fun i => A_ co s i)))%Qc.
Proof.
  intros [_ [evals [k [[_ [_ ST]] [_ RS]]]]]. cbn [fst snd] in *. pose proof (RS 0 ltac:(lia)) as R0. pose proof (RS 1 ltac:(lia)) as R1. cbn [cmp_ nth] in R0, R1.
  destruct p.
  - assert (K : forall s j, s < stages -> cmp_ (nth s k []) j = 0%Qc).
    { intros s j Hs. destruct (ST s Hs) as [arg [_ [E _]]]. cbn in E. injection E as E. rewrite <- E. destruct j as [|[|[|j]]]; reflexivity. }
    rewrite R0, R1. rewrite !(qsum_zero stages) by (intros i Hi; rewrite K by assumption; ring). split; ring.
  - assert (K1 : forall s, s < stages -> cmp_ (nth s k []) 1 = (- b_g b)%Qc).
    { intros s Hs. destruct (ST s Hs) as [arg [_ [E [L _]]]]. unfold ball_rhs in E. destruct arg as [|a0 [|a1 [|? ?]]]; try discriminate. cbn in E. injection E as E. rewrite <- E. reflexivity. }
    assert (K0 : forall s, s < stages -> cmp_ (nth s k []) 0 = (v - h * b_g b * qsum s (fun i => A_ co s i))%Qc).
    { intros s Hs. destruct (ST s Hs) as [arg [_ [E [L F]]]]. unfold ball_rhs in E. destruct arg as [|a0 [|a1 [|? ?]]]; try discriminate. cbn in E. injection E as E. rewrite <- E. cbn [cmp_ nth].
      pose proof (F 1 ltac:(lia)) as F1. cbn [cmp_ nth] in F1. rewrite F1. rewrite (qsum_ext s _ (fun i => A_ co s i * - b_g b)%Qc) by (intros i Hi; rewrite K1 by lia; reflexivity). rewrite qsum_scale_r. change (qsum s (fun i => A_ co s i)) with (qsum s (A_ co s)). ring. }
    split.
    + rewrite R1. rewrite (qsum_ext stages _ (fun s => B_ co stages 0 s * - b_g b)%Qc) by (intros i Hi; rewrite K1 by lia; reflexivity). rewrite qsum_scale_r. change (qsum stages (fun s => B_ co stages 0 s)) with (qsum stages (B_ co stages 0)). ring.
    + rewrite R0. rewrite (qsum_ext stages _ (fun s => B_ co stages 0 s * v - B_ co stages 0 s * qsum s (fun i => A_ co s i) * (h * b_g b))%Qc) by (intros i Hi; rewrite K0 by lia; ring).
      rewrite qsum_sub, !qsum_scale_r. change (qsum stages (fun s => B_ co stages 0 s)) with (qsum stages (B_ co stages 0)). ring.
Qed.
Lemma second_sums : order_two co stages -> qsum stages (fun s => B_ co stages 0 s) = 1%Qc /\ qsum stages (fun s => B_ co stages 0 s * qsum s (fun i => A_ co s i))%Qc = (1 / qc 2 1)%Qc.
Proof.
  intros [OC _]. split.
  - pose proof (OC (Node []) ltac:(simpl; lia)) as E. unfold weight in E. simpl in E. rewrite (qsum_ext stages _ (fun i => B_ co stages 0 i * 1)%Qc) by (intros; ring). rewrite E. apply Qc_is_canon. reflexivity.
  - pose proof (OC (Node [Node []]) ltac:(simpl; lia)) as E. unfold weight in E. simpl in E.
    rewrite (qsum_ext stages _ (fun i => B_ co stages 0 i * (qsum i (fun j => A_ co i j * 1) * 1))%Qc).
    + rewrite E. apply Qc_is_canon. reflexivity.
    + intros i Hi. rewrite qsum_scale_r. change (qsum i (fun j => A_ co i j)) with (qsum i (A_ co i)). ring.
Qed.
Lemma flight t y v y2 v2 : order_two co stages -> textbook_step co stages 2 (ball_rhs b false) h (t, [y; v]) ((t + h)%Qc, [y2; v2]) ->
  v2 = (v - b_g b * h)%Qc /\ y2 = (y + v * h - b_g b * h * h / qc 2 1)%Qc.
Proof.
  intros SO TS. destruct (textbook_ball false t y v y2 v2 TS) as [E1 E2]. destruct (second_sums SO) as [S1 S2]. rewrite S1 in *. rewrite S2 in *.
  split; [rewrite E1; ring|]. rewrite E2. field. discriminate.
Qed.

(** ** Time *)
Definition credit (y v : Qc) (p : bool) : Qc := if p then 0%Qc else if Qceqb y 0 && Qcleb 0 v then h else (h + h)%Qc.
Lemma between_0 a c : between a c 0 = a. Proof. unfold between. ring. Qed.
Lemma cross_0 z : cross_time 0 z = 0%Qc. Proof. unfold cross_time, Qcdiv. ring. Qed.
Lemma credit_lo y v : (h <= credit y v false)%Qc.
Proof. unfold credit. destruct (_ && _); qclra. Qed.
Lemma credit_hi y v p : (credit y v p <= h + h)%Qc.
Proof. unfold credit. destruct p; [qclra|]. destruct (_ && _); qclra. Qed.
Lemma step_time s y v p s' hh a : (0 <= b_r b)%Qc -> inv s y v p -> stp s = Ret (s', hh, a) ->
  exists y' v' p', inv s' y' v' p' /\ (h + credit y' v' p' <= (1 + 1) * ((rk_t s' : Qc) - (rk_t s : Qc)) + credit y v p)%Qc /\
    ((rk_t s : Qc) <= (rk_t s' : Qc))%Qc /\ ((rk_t s' : Qc) <= (rk_t s : Qc) + h)%Qc.
Proof.
  intros R0 I ES. destruct (bstep s y v p I) as [y2 [v2 [TS [s1 a1 E I' _ T _|E _ _ _|s1 a1 th E TH T0 T1 NEG T X I' _]]]]; rewrite ES in E; [|discriminate|].
  - injection E as -> -> ->. exists y2, v2, p. split; [assumption|]. change (nT QcNum) with Qc in *. rewrite T.
    destruct p; [unfold credit; split; [|split]; qclra|]. pose proof (credit_lo y v). pose proof (credit_hi y2 v2 false). split; [|split]; qclra.
  - injection E as -> -> ->. destruct p.
    { destruct (textbook_ball true _ _ _ _ _ TS) as [-> _]. destruct I as [_ [_ [Y _]]]. exfalso. apply (Qclt_not_le _ _ NEG Y). }
    assert (TT : (0 <= h * th)%Qc) by (apply Qcmul_nn; [apply Qclt_le_weak|]; assumption).
    assert (TU : (h * th <= h)%Qc) by (assert (h * th <= h * 1)%Qc by (rewrite !(Qcmult_comm h); apply Qcmult_le_compat_r; apply Qclt_le_weak; assumption); qclra).
    unfold after_impact in I'. pose proof (credit_lo y v) as CL. change (nT QcNum) with Qc in *. rewrite T.
    destruct (Qcltb (Qcabs (between v v2 th)) (b_s b)); [|destruct (Qcltb (between v v2 th) 0) eqn:NV].
    + exists 0%Qc, 0%Qc, true. split; [apply I'; reflexivity|]. unfold credit at 1. split; [|split]; qclra.
    + exists 0%Qc, (between v v2 th * - b_r b)%Qc, false. split; [apply I'; reflexivity|]. apply Qcltb_lt in NV.
      assert (VP : (0 <= between v v2 th * - b_r b)%Qc) by (change (nT QcNum) with Qc in *; qcnra).
      assert (C1 : credit 0 (between v v2 th * - b_r b) false = h) by (unfold credit; rewrite Qceqb_refl, (proj2 (Qcleb_le _ _) VP); reflexivity).
      assert (C2 : credit y v false = (h + h)%Qc).
      { unfold credit. destruct (Qceqb y 0) eqn:Y0; [|reflexivity]. destruct (Qcleb 0 v) eqn:V0; [|reflexivity]. exfalso.
        apply Qceqb_eq in Y0. apply Qcleb_le in V0. subst y. rewrite TH, cross_0, between_0 in NV. apply (Qclt_not_le _ _ NV V0). }
      change (nT QcNum) with Qc in *. rewrite C1, C2. split; [|split]; qclra.
    + exists 0%Qc, 0%Qc, true. split; [apply I'; reflexivity|]. unfold credit at 1. split; [|split]; qclra.
Qed.
Lemma run_time : (0 <= b_r b)%Qc -> forall count s y v p s' posts, inv s y v p -> run count s = Ret (s', posts) ->
  (h * qn count <= (1 + 1) * ((rk_t s' : Qc) - (rk_t s : Qc)) + credit y v p)%Qc /\ ((rk_t s : Qc) <= (rk_t s' : Qc))%Qc /\ ((rk_t s' : Qc) <= (rk_t s : Qc) + h * qn count)%Qc.
Proof.
  intros R0. induction count as [|c IH]; intros s y v p s' posts I E.
  - cbn in E. injection E as <- <-. rewrite qn_0. assert (0 <= credit y v p)%Qc by (unfold credit; destruct p; [qclra|]; destruct (_ && _); qclra). split; [|split]; qclra.
  - unfold ball_steps in *. cbn [rk_steps] in E. destruct (stp s) as [[[s1 hh] a]| |] eqn:ES; try discriminate. cbn [obind] in E.
    destruct (rk_steps _ _ _ _ _ _ s1) as [[s2 l2]| |] eqn:E2; try discriminate. cbn [obind fst snd] in E. injection E as <- <-.
    destruct (step_time s y v p s1 hh a R0 I ES) as [y1 [v1 [p1 [I1 [L1 [M1 U1]]]]]]. destruct (IH s1 y1 v1 p1 s2 l2 I1 E2) as [L2 [M2 U2]].
    rewrite qn_S. change (nT QcNum) with Qc in *. split; [|split]; qclra.
Qed.

(** ** Energy *)
Definition en (y v : Qc) : Qc := (v * v + qc 2 1 * b_g b * y)%Qc.
Lemma inv_energy s y v p : inv s y v p -> energy (b_g b) s = en y v.
Proof. intros [_ [E _]]. unfold energy, height, speed. rewrite E. reflexivity. Qed.
Lemma flight_en y v y2 v2 : v2 = (v - b_g b * h)%Qc -> y2 = (y + v * h - b_g b * h * h / qc 2 1)%Qc -> en y2 v2 = en y v.
Proof. intros -> ->. unfold en. assert (TW : qc 2 1 = (1 + 1)%Qc) by (apply Qc_is_canon; reflexivity). rewrite TW. field. discriminate. Qed.
Lemma convex_en y v y2 v2 th : (0 <= th)%Qc -> (th < 1)%Qc -> en y2 v2 = en y v -> between y y2 th = 0%Qc -> (between v v2 th * between v v2 th <= en y v)%Qc.
Proof.
  intros T0 T1 E Z. assert (W : (en y v = between v v2 th * between v v2 th + qc 2 1 * b_g b * between y y2 th + th * (1 - th) * ((v - v2) * (v - v2)))%Qc).
  { transitivity ((1 - th) * en y v + th * en y2 v2)%Qc; [rewrite E; ring|]. unfold en, between. ring. }
  rewrite W, Z. assert (0 <= th * (1 - th) * ((v - v2) * (v - v2)))%Qc.
  { apply Qcmul_nn; [apply Qcmul_nn; [assumption|qclra]|]. generalize (v - v2)%Qc as d. intros d. destruct (Qclt_le_dec d 0); qcnra. }
  assert (QQ : forall a c : Qc, (0 <= c)%Qc -> (a <= a + qc 2 1 * b_g b * 0 + c)%Qc) by (intros a c Hc; replace (a + qc 2 1 * b_g b * 0 + c)%Qc with (a + c)%Qc by ring; qclra). apply QQ. assumption.
Qed.
Lemma event_zero y y2 : (0 <= y)%Qc -> (y2 < 0)%Qc -> between y y2 (cross_time y y2) = 0%Qc.
Proof. intros Y Y2. unfold between, cross_time. field. intro E. assert (0 < y - y2)%Qc by qclra. rewrite E in H. discriminate. Qed.
Lemma sq_nonneg (a : Qc) : (0 <= a * a)%Qc. Proof. destruct (Qclt_le_dec a 0); qcnra. Qed.
Lemma step_energy s y v p s' hh a : order_two co stages -> (b_r b * b_r b <= 1)%Qc -> inv s y v p -> stp s = Ret (s', hh, a) ->
  exists y' v' p', inv s' y' v' p' /\ (en y' v' <= en y v)%Qc.
Proof.
  intros SO R1 I ES. destruct (bstep s y v p I) as [y2 [v2 [TS [s1 a1 E I' _ T _|E _ _ _|s1 a1 th E TH T0 T1 NEG T X I' _]]]]; rewrite ES in E; [|discriminate|].
  - injection E as -> -> ->. exists y2, v2, p. split; [assumption|]. destruct p.
    + destruct (textbook_ball true _ _ _ _ _ TS) as [-> ->]. apply Qcle_refl.
    + destruct (flight _ _ _ _ _ SO TS) as [EV EY]. rewrite (flight_en y v y2 v2 EV EY). apply Qcle_refl.
  - injection E as -> -> ->. assert (Y : (0 <= y)%Qc) by apply I. destruct p.
    { destruct (textbook_ball true _ _ _ _ _ TS) as [-> _]. exfalso. apply (Qclt_not_le _ _ NEG Y). }
    destruct (flight _ _ _ _ _ SO TS) as [EV EY].
    assert (CV : (between v v2 th * between v v2 th <= en y v)%Qc).
    { apply (convex_en y v y2 v2 th T0 T1 (flight_en y v y2 v2 EV EY)). rewrite TH. apply event_zero; assumption. }
    pose proof (sq_nonneg (between v v2 th)) as SQ.
    unfold after_impact in I'. destruct (Qcltb (Qcabs (between v v2 th)) (b_s b)); [|destruct (Qcltb (between v v2 th) 0) eqn:NV].
    + exists 0%Qc, 0%Qc, true. split; [apply I'; reflexivity|]. unfold en at 1. assert (QQ : (0 * 0 + qc 2 1 * b_g b * 0 = 0)%Qc) by ring. rewrite QQ. eapply Qcle_trans; eassumption.
    + exists 0%Qc, (between v v2 th * - b_r b)%Qc, false. split; [apply I'; reflexivity|]. eapply Qcle_trans; [|exact CV]. unfold en. generalize (between v v2 th). intros q. pose proof (sq_nonneg q) as SQq.
      assert (QQ : (q * - b_r b * (q * - b_r b) + qc 2 1 * b_g b * 0 = b_r b * b_r b * (q * q))%Qc) by ring. rewrite QQ.
      assert (LE : (b_r b * b_r b * (q * q) <= 1 * (q * q))%Qc) by (apply Qcmult_le_compat_r; assumption). replace (1 * (q * q))%Qc with (q * q)%Qc in LE by ring. exact LE.
    + exists 0%Qc, 0%Qc, true. split; [apply I'; reflexivity|]. unfold en at 1. assert (QQ : (0 * 0 + qc 2 1 * b_g b * 0 = 0)%Qc) by ring. rewrite QQ. eapply Qcle_trans; eassumption.
Qed.
Lemma run_energy : order_two co stages -> (b_r b * b_r b <= 1)%Qc -> forall count s y v p s' posts, inv s y v p -> run count s = Ret (s', posts) ->
  (energy (b_g b) s' <= energy (b_g b) s)%Qc.
Proof.
  intros SO R1. induction count as [|c IH]; intros s y v p s' posts I E.
  - cbn in E. injection E as <- <-. apply Qcle_refl.
  - unfold ball_steps in *. cbn [rk_steps] in E. destruct (stp s) as [[[s1 hh] a]| |] eqn:ES; try discriminate. cbn [obind] in E.
    destruct (rk_steps _ _ _ _ _ _ s1) as [[s2 l2]| |] eqn:E2; try discriminate. cbn [obind fst snd] in E. injection E as <- <-.
    destruct (step_energy s y v p s1 hh a SO R1 I ES) as [y1 [v1 [p1 [I1 L1]]]]. rewrite (inv_energy _ _ _ _ I). eapply Qcle_trans; [exact (IH s1 y1 v1 p1 s2 l2 I1 E2)|].
    rewrite (inv_energy _ _ _ _ I1). assumption.
Qed.
End Ball.
