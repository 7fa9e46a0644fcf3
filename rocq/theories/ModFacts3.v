From Coq Require Import List Arith Bool ZArith QArith Qcanon Qround Lia Lqa.
From Verif Require Import Base BaseFacts VecModel VOps RkModel RkSpec RkFacts RkFacts2 RkFacts3 RkFacts4 RkFacts6 EvModel EvSpec EvFacts3 EvFacts4 ModModel ModSpec ModFacts ModFacts2.
Import ListNotations.
Local Open Scope nat_scope.

Lemma archimed (x d : Qc) : (0 < d)%Qc -> exists n, (x < qn n * d)%Qc.
Proof.
  intros D. exists (Z.to_nat (Qfloor (x / d)%Qc + 1)).
  assert (D0 : d <> 0%Qc) by (intro E; rewrite E in D; discriminate).
  assert (F : ((x / d)%Qc < qn (Z.to_nat (Qfloor (x / d)%Qc + 1)))%Qc).
  { pose proof (Qlt_floor (x / d)%Qc) as L. set (z := (Qfloor (x / d)%Qc + 1)%Z) in *. unfold Qclt.
    assert (EQ : (this (qn (Z.to_nat z)) == inject_Z (Z.of_nat (Z.to_nat z)))%Q) by (exact (Qred_correct (inject_Z (Z.of_nat (Z.to_nat z))))). rewrite EQ.
    eapply Qlt_le_trans; [exact L|]. unfold Qle, inject_Z; simpl. lia. }
  replace x with (x / d * d)%Qc at 1 by (field; assumption). apply Qcmult_lt_compat_r; assumption.
Qed.

Lemma loss_aux (q w g2 d e : Qc) : (0 <= q)%Qc -> (q < 1)%Qc -> (0 <= w)%Qc -> (w <= e)%Qc -> (d * qc 4 1 = (1 - q) * g2)%Qc -> (g2 <= qc 4 1 * (q * w))%Qc -> (q * w + d <= e)%Qc.
Proof.
  intros Q0 Q1 W E D G.
  assert (A : (0 <= (1 - q) * (qc 4 1 * (q * w) - g2))%Qc) by (apply Qcmul_nn; qclra).
  assert (B : (0 <= (1 - q) * ((1 - q) * w))%Qc) by (apply Qcmul_nn; [qclra|apply Qcmul_nn; [qclra|assumption]]).
  assert (FO : qc 4 1 = ((1 + 1) * (1 + 1))%Qc) by (apply Qc_is_canon; reflexivity). rewrite FO in *.
  assert (F : ((1 + 1) * (1 + 1) * (q * w + d) <= (1 + 1) * (1 + 1) * e)%Qc).
  { replace ((1 + 1) * (1 + 1) * (q * w + d))%Qc with ((1 + 1) * (1 + 1) * (q * w) + (1 - q) * g2)%Qc by (rewrite <- D; ring). qcnra. }
  clear - F. qclra.
Qed.

Section Ball.
Context (b : ball QcNum) (co : coeffs QcNum) (stages : nat) (h : Qc).
Hypothesis WF : wf_table co stages 1.
Hypothesis SC : shortcut_ok co stages.
Hypothesis HP : (0 < h)%Qc.
Notation inv := (inv stages h).
Notation stp := (rk_step (linear_events (ball_model b)) (fun w : ctl QcNum * bool => ball_rhs b (snd w)) co 2 h).
Notation run := (ball_steps b co h).
Notation bstep := (ball_step1 b co stages h WF SC).
Notation en := (en b).

(** ** No failure *)
Lemma impact_two v p : exists y' v' p', after_impact b v p = (p', [y'; v']).
Proof. unfold after_impact. destruct (Qcltb _ _); [|destruct (Qcltb _ _)]; eexists; eexists; eexists; reflexivity. Qed.
Lemma calm_run : forall count s y v p, inv s y v p -> calm s y -> exists s' posts, run count s = Ret (s', posts).
Proof.
  induction count as [|c IH]; intros s y v p I CM; [eexists; eexists; reflexivity|]. unfold ball_steps in *. cbn [rk_steps].
  destruct (bstep s y v p I) as [y2 [v2 [_ [s1 a1 E I' _ T C _|E _ _ NC|s1 a1 th E TH T0 T1 NEG T X I' C]]]].
  - rewrite E. cbn [obind]. destruct (IH s1 y2 v2 p I' (C CM)) as [s2 [l2 ->]]. eexists. eexists. reflexivity.
  - contradiction.
  - rewrite E. cbn [obind]. destruct (impact_two (between v v2 th) p) as [y' [v' [p' A]]]. destruct (IH s1 y' v' p' (I' _ _ _ A) (C y')) as [s2 [l2 ->]]. eexists. eexists. reflexivity.
Qed.
Lemma free_next g y0 v0 k : free_height g y0 v0 h (S k) = (free_height g y0 v0 h k + free_speed g v0 h k * h - g * h * h / qc 2 1)%Qc /\ free_speed g v0 h (S k) = (free_speed g v0 h k - g * h)%Qc.
Proof.
  unfold free_height, free_speed. rewrite qn_S. assert (TW : qc 2 1 = (1 + 1)%Qc) by (apply Qc_is_canon; reflexivity). rewrite TW. split; [field; discriminate|ring].
Qed.
Lemma free_run y0 v0 : order_two co stages -> (forall k, 0 < k -> free_height (b_g b) y0 v0 h k <> 0%Qc) ->
  forall count k s, inv s (free_height (b_g b) y0 v0 h k) (free_speed (b_g b) v0 h k) false -> exists s' posts, run count s = Ret (s', posts).
Proof.
  intros SO NZ. induction count as [|c IH]; intros k s I; [eexists; eexists; reflexivity|].
  unfold ball_steps in *. cbn [rk_steps].
  destruct (bstep s _ _ _ I) as [y2 [v2 [TS OC]]]. destruct (flight b co stages h _ _ _ _ _ SO TS) as [EV EY].
  destruct (free_next (b_g b) y0 v0 k) as [F1 F2]. change (nT QcNum) with Qc in *. rewrite <- F1 in EY. rewrite <- F2 in EV. subst y2 v2.
  destruct OC as [s1 a1 E I' _ T C _|E Z0 _ NC|s1 a1 th E TH T0 T1 NEG T X I' C].
  - rewrite E. cbn [obind]. destruct (IH (S k) s1 I') as [s2 [l2 E2]]. rewrite E2. eexists. eexists. reflexivity.
  - exfalso. apply (NZ (S k) ltac:(lia) Z0).
  - rewrite E. cbn [obind]. destruct (impact_two (between (free_speed (b_g b) v0 h k) (free_speed (b_g b) v0 h (S k)) th) false) as [y' [v' [p' A]]].
    destruct (calm_run c s1 y' v' p' (I' _ _ _ A) (C y')) as [s2 [l2 E2]]. unfold ball_steps in E2. rewrite E2. eexists. eexists. reflexivity.
Qed.
(** As long as the free flight stays above the plane the run is the exact free flight. *)
Lemma free_exact y0 v0 : order_two co stages -> forall count k s, (forall j, k < j <= k + count -> (0 < free_height (b_g b) y0 v0 h j)%Qc) ->
  inv s (free_height (b_g b) y0 v0 h k) (free_speed (b_g b) v0 h k) false ->
  exists s' posts, run count s = Ret (s', posts) /\ rk_t s' = ((rk_t s : Qc) + qn count * h)%Qc /\ rk_x s' = [free_height (b_g b) y0 v0 h (k + count); free_speed (b_g b) v0 h (k + count)].
Proof.
  intros SO. induction count as [|c IH]; intros k s PS I.
  - exists s, []. split; [reflexivity|]. rewrite qn_0, Nat.add_0_r. split; [change (rk_t s = (rk_t s : Qc) + 0 * h)%Qc; assert (RR : forall a : Qc, a = (a + 0 * h)%Qc) by (intros; ring); exact (RR _)|]. apply I.
  - unfold ball_steps in *. cbn [rk_steps]. destruct (bstep s _ _ _ I) as [y2 [v2 [TS OC]]]. destruct (flight b co stages h _ _ _ _ _ SO TS) as [EV EY].
    destruct (free_next (b_g b) y0 v0 k) as [F1 F2]. change (nT QcNum) with Qc in *. rewrite <- F1 in EY. rewrite <- F2 in EV. subst y2 v2.
    pose proof (PS (S k) ltac:(lia)) as P1.
    destruct OC as [s1 a1 E I' _ T C _|E Z0 _ NC|s1 a1 th E TH T0 T1 NEG T X I' C].
    + rewrite E. cbn [obind]. destruct (IH (S k) s1 ltac:(intros; apply PS; lia) I') as [s2 [l2 [E2 [T2 X2]]]]. rewrite E2. cbn [obind fst snd]. eexists. eexists. split; [reflexivity|].
      split; [rewrite T2, T, qn_S; assert (RR : forall a q : Qc, (a + h + q * h = a + (q + 1) * h)%Qc) by (intros; ring); exact (RR _ _)|].
      replace (k + S c) with (S k + c) by lia. assumption.
    + rewrite Z0 in P1. discriminate.
    + exfalso. apply (Qclt_not_le _ _ NEG). apply Qclt_le_weak. assumption.
Qed.

(** ** Coming to rest *)
Definition rests (s : bstate) : Prop := exists n, forall count, n <= count ->
  run count s = Throw \/ exists s' posts, run count s = Ret (s', posts) /\ stuck s' /\ rk_x s' = [0%Qc; 0%Qc].
Lemma stuck_run : forall count s y v, inv s y v true -> exists s' posts, run count s = Ret (s', posts) /\ inv s' y v true /\ rk_t s' = ((rk_t s : Qc) + qn count * h)%Qc.
Proof.
  induction count as [|c IH]; intros s y v I.
  - exists s, []. split; [reflexivity|]. split; [assumption|]. rewrite qn_0. assert (RR : forall a : Qc, a = (a + 0 * h)%Qc) by (intros; ring). exact (RR _).
  - unfold ball_steps in *. cbn [rk_steps]. destruct (bstep s _ _ _ I) as [y2 [v2 [TS OC]]]. destruct (textbook_ball b co stages h true _ _ _ _ _ TS) as [-> ->]. assert (Y : (0 <= y)%Qc) by apply I.
    destruct OC as [s1 a1 E I' _ T C _|E Z0 YP NC|s1 a1 th E TH T0 T1 NEG T X I' C].
    + rewrite E. cbn [obind]. destruct (IH s1 y v I') as [s2 [l2 [E2 [I2 T2]]]]. rewrite E2. eexists. eexists. split; [reflexivity|]. split; [assumption|].
      cbn [fst]. change (nT QcNum) with Qc in *. rewrite T2, T, qn_S. ring.
    + subst y. discriminate.
    + exfalso. apply (Qclt_not_le _ _ NEG Y).
Qed.
Lemma rests_stuck s : inv s 0 0 true -> rests s.
Proof.
  intros I. exists 0. intros count _. right. destruct (stuck_run count s _ _ I) as [s' [l [E [I' _]]]]. exists s', l. split; [assumption|]. split; [apply I'|apply I'].
Qed.
Lemma rests_step s s' hh a : stp s = Ret (s', hh, a) -> rests s' -> rests s.
Proof.
  intros E [n R]. exists (S n). intros [|c] Hc; [lia|]. unfold ball_steps in *. cbn [rk_steps]. rewrite E. cbn [obind].
  destruct (R c ltac:(lia)) as [->|[s2 [l2 [-> [S2 X2]]]]]; [left; reflexivity|right]. exists s2, (a :: l2). auto.
Qed.
Lemma rests_throw s : stp s = Throw -> rests s.
Proof. intros E. exists 1. intros [|c] Hc; [lia|]. unfold ball_steps. cbn [rk_steps]. rewrite E. left. reflexivity. Qed.

Section Rest.
Hypothesis SO : order_two co stages.
Hypothesis G : (0 < b_g b)%Qc.
Hypothesis R0 : (0 <= b_r b)%Qc.
Hypothesis R1 : (b_r b < 1)%Qc.
(** An event that does not reflect the ball ends the motion. *)
Lemma rests_event s s1 hh a1 v1 : stp s = Ret (s1, hh, a1) -> (forall y' v' p', after_impact b v1 false = (p', [y'; v']) -> inv s1 y' v' p') ->
  ((v1 < 0)%Qc -> inv s1 0 (v1 * - b_r b) false -> rests s1) -> rests s.
Proof.
  intros E I' H. apply (rests_step s s1 hh a1 E). unfold after_impact in I'. destruct (Qcltb (Qcabs v1) (b_s b)); [|destruct (Qcltb v1 0) eqn:NV].
  - apply rests_stuck. apply I'. reflexivity.
  - apply Qcltb_lt in NV. apply H; [assumption|]. apply I'. reflexivity.
  - apply rests_stuck. apply I'. reflexivity.
Qed.
(** On the plane with an upward speed too small for one step of flight *)
Lemma rests_slow s v : inv s 0 v false -> (0 <= v)%Qc -> (v + v < b_g b * h)%Qc -> rests s.
Proof.
  intros I V0 V1. destruct (bstep s _ _ _ I) as [y2 [v2 [TS OC]]]. destruct (flight b co stages h _ _ _ _ _ SO TS) as [EV EY].
  destruct OC as [s1 a1 E I' YN T C|E Z0 YP NC|s1 a1 th E TH T0 T1 NEG T X I' C].
  - exfalso. assert (Y2 : (y2 + y2 = (v + v - b_g b * h) * h)%Qc) by (rewrite EY; assert (TW : qc 2 1 = (1 + 1)%Qc) by (apply Qc_is_canon; reflexivity); rewrite TW; field; discriminate).
    assert (NE : ((v + v - b_g b * h) * h < 0)%Qc) by (assert (D : (0 < b_g b * h - (v + v))%Qc) by qclra; generalize dependent (b_g b * h)%Qc; intros; qcnra). rewrite <- Y2 in NE. qclra.
  - apply rests_throw. assumption.
  - apply (rests_event s s1 _ a1 _ E I'). intros NV. exfalso. rewrite TH, cross_0, between_0 in NV. apply (Qclt_not_le _ _ NV V0).
Qed.
Definition dec : Qc := ((1 - b_r b * b_r b) * (b_g b * h * (b_g b * h)) / qc 4 1)%Qc.
Lemma r_sq : (b_r b * b_r b < 1)%Qc.
Proof. change (nT QcNum) with Qc in *. generalize dependent (b_r b). intros r Q0 Q1. qcnra. Qed.
Lemma gh_pos : (0 < b_g b * h)%Qc.
Proof. assert (E : (0 * h < b_g b * h)%Qc) by (apply Qcmult_lt_compat_r; assumption). replace (0 * h)%Qc with 0%Qc in E by ring. exact E. Qed.
Lemma dec_pos : (0 < dec)%Qc.
Proof.
  unfold dec. pose proof r_sq as Q. pose proof gh_pos as P. generalize dependent (b_g b * h)%Qc. intros w P. generalize dependent (b_r b * b_r b)%Qc. intros q Q.
  assert (A : (0 < (1 - q) * (w * w))%Qc) by (assert (0 < 1 - q)%Qc by qclra; assert (0 < w * w)%Qc by qcnra; generalize dependent (1 - q)%Qc; generalize dependent (w * w)%Qc; intros; qcnra).
  assert (I : (0 < / qc 4 1)%Qc) by reflexivity. unfold Qcdiv. generalize dependent ((1 - q) * (w * w))%Qc. intros; qcnra.
Qed.
(** Each reflection that lets the ball fly again takes at least dec from the energy. *)
Lemma reflect_loss v1 e : (v1 * v1 <= e)%Qc -> (v1 < 0)%Qc -> ~ (v1 * - b_r b + v1 * - b_r b < b_g b * h)%Qc -> (en 0 (v1 * - b_r b) + dec <= e)%Qc.
Proof.
  intros LE NV NS. apply Qcnot_lt_le in NS. pose proof gh_pos as P. pose proof r_sq as Q.
  assert (E0 : en 0 (v1 * - b_r b) = (b_r b * b_r b * (v1 * v1))%Qc) by (unfold ModFacts2.en; ring). rewrite E0.
  assert (D4 : (dec * qc 4 1 = (1 - b_r b * b_r b) * (b_g b * h * (b_g b * h)))%Qc) by (unfold dec; field; discriminate).
  assert (K : (b_g b * h * (b_g b * h) <= qc 4 1 * (b_r b * b_r b * (v1 * v1)))%Qc).
  { replace (qc 4 1 * (b_r b * b_r b * (v1 * v1)))%Qc with ((v1 * - b_r b + v1 * - b_r b) * (v1 * - b_r b + v1 * - b_r b))%Qc.
    - generalize dependent (v1 * - b_r b + v1 * - b_r b)%Qc. generalize dependent (b_g b * h)%Qc. intros; qcnra.
    - assert (FO : qc 4 1 = ((1 + 1) * (1 + 1))%Qc) by (apply Qc_is_canon; reflexivity). rewrite FO. ring. }
  apply (loss_aux (b_r b * b_r b) (v1 * v1) (b_g b * h * (b_g b * h)) dec e); try assumption; apply sq_nonneg.
Qed.
(** The induction: K bounds the number of reflections left, M the number of steps up to the next one. *)
Lemma rests_all : forall K s y v, inv s y v false -> (en y v < qn K * dec)%Qc -> rests s.
Proof.
  induction K as [|K IK]; intros s y v I EK.
  - exfalso. rewrite qn_0 in EK. assert (Z : (0 * dec = 0)%Qc) by ring. rewrite Z in EK. assert (Y : (0 <= y)%Qc) by apply I.
    assert (0 <= en y v)%Qc.
    { unfold ModFacts2.en. pose proof (sq_nonneg v). assert (0 <= qc 2 1 * b_g b * y)%Qc by (apply Qcmul_nn; [apply Qcmul_nn; [discriminate|apply Qclt_le_weak; assumption]|assumption]). generalize dependent (qc 2 1 * b_g b * y)%Qc. intros. qclra. }
    apply (Qclt_not_le _ _ EK). assumption.
  - destruct (archimed (v + en y v + 1) (b_g b * h) gh_pos) as [M HM]. revert s y v I EK HM. induction M as [|M IM]; intros s y v I EK HM; assert (Y : (0 <= y)%Qc) by apply I.
    + exfalso. rewrite qn_0 in HM. assert (Z : (0 * (b_g b * h) = 0)%Qc) by ring. rewrite Z in HM.
      assert (GY : (0 <= qc 2 1 * b_g b * y)%Qc) by (apply Qcmul_nn; [apply Qcmul_nn; [discriminate|apply Qclt_le_weak; assumption]|assumption]).
      unfold ModFacts2.en in HM. clear - HM GY. change (nT QcNum) with Qc in *. generalize dependent (qc 2 1 * b_g b * y)%Qc. intros. qcnra.
    + destruct (bstep s _ _ _ I) as [y2 [v2 [TS OC]]]. destruct (flight b co stages h _ _ _ _ _ SO TS) as [EV EY]. pose proof (flight_en b h y v y2 v2 EV EY) as EE.
      destruct OC as [s1 a1 E I' YN T C|E Z0 YP NC|s1 a1 th E TH T0 T1 NEG T X I' C].
      * apply (rests_step s s1 _ a1 E). apply (IM s1 y2 v2 I').
        -- rewrite EE. assumption.
        -- rewrite EE, EV. rewrite qn_S in HM. clear - HM. change (nT QcNum) with Qc in *. generalize dependent (en y v). generalize dependent (b_g b * h)%Qc. intros. qclra.
      * apply rests_throw. assumption.
      * apply (rests_event s s1 _ a1 _ E I'). intros NV I1.
        assert (CV : (between v v2 th * between v v2 th <= en y v)%Qc).
        { apply (convex_en b y v y2 v2 th T0 T1 EE). rewrite TH. apply event_zero; assumption. }
        destruct (Qclt_le_dec (between v v2 th * - b_r b + between v v2 th * - b_r b) (b_g b * h)) as [SL|NS].
        -- apply (rests_slow s1 _ I1); [|assumption]. clear - NV R0. change (nT QcNum) with Qc in *. generalize dependent (between v v2 th). generalize dependent (b_r b). intros; qcnra.
        -- apply (IK s1 _ _ I1). pose proof (reflect_loss _ _ CV NV (fun L => Qclt_not_le _ _ L NS)) as RL. rewrite qn_S in EK.
           clear - RL EK. generalize dependent (en 0 (between v v2 th * - b_r b)). generalize dependent (en y v). generalize dependent dec. intros. qclra.
Qed.
Lemma rests_any s y v : inv s y v false -> rests s.
Proof. intros I. destruct (archimed (en y v) dec dec_pos) as [K HK]. exact (rests_all K s y v I HK). Qed.
End Rest.
End Ball.
