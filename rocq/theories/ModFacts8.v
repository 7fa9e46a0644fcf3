From Coq Require Import List Arith Bool ZArith QArith Qcanon Lia Lqa.
From Verif Require Import Base BaseFacts VecModel VOps RkModel RkSpec RkFacts3 RkFacts6 EvModel EvSpec ModModel ModSpec ModFacts ModFacts2 ModFacts3 ModFacts4.
Import ListNotations.
Local Open Scope nat_scope.

Section Ball.
Context (b : ball QcNum) (co : coeffs QcNum) (stages : nat) (h : Qc).
Hypothesis WF : wf_table co stages 1.
Hypothesis SC : shortcut_ok co stages.
Hypothesis HP : (0 < h)%Qc.
Notation run := (ball_steps b co h).
Notation start := (ball_start b).

Lemma above t0 y0 v0 s0 count : (0 <= y0)%Qc -> match run count (start t0 [y0; v0] s0) with Ret (s', _) => (0 <= height s')%Qc | Throw => True | UB => False end.
Proof.
  intros Y. destruct (run_inv b co stages h WF SC count _ _ _ _ (start_inv b stages h t0 y0 v0 s0 _ Y eq_refl)) as [->|[s' [ps [y' [v' [p' [-> [I _]]]]]]]]; [exact Logic.I|].
  destruct I as [_ [X [Y' _]]]. unfold height. rewrite X. exact Y'.
Qed.
Lemma timely t0 y0 v0 s0 count s' posts : (0 <= b_r b)%Qc -> (0 <= y0)%Qc -> run count (start t0 [y0; v0] s0) = Ret (s', posts) ->
  (qn count * h <= qc 2 1 * (rk_t s' - t0) + qc 2 1 * h)%Qc /\ (t0 <= rk_t s')%Qc /\ (rk_t s' <= t0 + qn count * h)%Qc.
Proof.
  intros R Y E. destruct (run_time b co stages h WF SC HP R count _ _ _ _ _ _ (start_inv b stages h t0 y0 v0 s0 _ Y eq_refl) E) as [A [B C]].
  change (rk_t (start t0 [y0; v0] s0)) with t0 in *. pose proof (credit_hi h HP y0 v0 (snd (rk_w s0))) as H. change (nT QcNum) with Qc in *.
  assert (TW : qc 2 1 = (1 + 1)%Qc) by (apply Qc_is_canon; reflexivity). rewrite TW.
  replace (qn count * h)%Qc with (h * qn count)%Qc by ring. split; [|split; assumption].
  replace ((1 + 1) * (rk_t s' - t0) + (1 + 1) * h)%Qc with ((1 + 1) * (rk_t s' - t0) + (h + h))%Qc by ring. eapply Qcle_trans; [exact A|]. apply Qcplus_le_compat; [apply Qcle_refl|assumption].
Qed.
Lemma loses t0 y0 v0 s0 count s' posts : order_two co stages -> (b_r b * b_r b <= 1)%Qc -> (0 <= y0)%Qc -> run count (start t0 [y0; v0] s0) = Ret (s', posts) ->
  (energy (b_g b) s' <= v0 * v0 + qc 2 1 * b_g b * y0)%Qc.
Proof.
  intros SO R Y E. exact (run_energy b co stages h WF SC SO R count _ _ _ _ _ _ (start_inv b stages h t0 y0 v0 s0 _ Y eq_refl) E).
Qed.
Lemma from_plane t0 v0 s0 count : exists s' posts, run count (start t0 [0%Qc; v0] s0) = Ret (s', posts).
Proof.
  eapply (calm_run b co stages h WF SC count); [apply (start_inv b stages h t0 0 v0 s0 _ (Qcle_refl 0) eq_refl)|]. left. split; reflexivity.
Qed.
Lemma free0 g y0 v0 : free_height g y0 v0 h 0 = y0 /\ free_speed g v0 h 0 = v0.
Proof. unfold free_height, free_speed. rewrite qn_0. split; [field; discriminate|ring]. Qed.
Lemma not_exact t0 y0 v0 s0 count : order_two co stages -> ~ stuck s0 -> (0 <= y0)%Qc -> (forall k, 0 < k -> free_height (b_g b) y0 v0 h k <> 0%Qc) ->
  exists s' posts, run count (start t0 [y0; v0] s0) = Ret (s', posts).
Proof.
  intros SO ST Y FH. apply (free_run b co stages h WF SC y0 v0 SO FH count 0). destruct (free0 (b_g b) y0 v0) as [-> ->]. apply start_inv; [assumption|].
  unfold stuck in ST. destruct (snd (rk_w s0)); [contradiction ST; reflexivity|reflexivity].
Qed.
Lemma flies t0 y0 v0 s0 count : order_two co stages -> ~ stuck s0 -> (0 <= y0)%Qc -> (forall k, 0 < k <= count -> (0 < free_height (b_g b) y0 v0 h k)%Qc) ->
  exists s' posts, run count (start t0 [y0; v0] s0) = Ret (s', posts) /\ rk_t s' = (t0 + qn count * h)%Qc /\
    height s' = free_height (b_g b) y0 v0 h count /\ speed s' = free_speed (b_g b) v0 h count.
Proof.
  intros SO ST Y FH. destruct (free_exact b co stages h WF SC y0 v0 SO count 0 (start t0 [y0; v0] s0)) as [s' [ps [E [T X]]]].
  - intros j Hj. apply FH. lia.
  - destruct (free0 (b_g b) y0 v0) as [-> ->]. apply start_inv; [assumption|]. unfold stuck in ST. destruct (snd (rk_w s0)); [contradiction ST; reflexivity|reflexivity].
  - exists s', ps. split; [assumption|]. split; [exact T|]. unfold height, speed. rewrite X. split; reflexivity.
Qed.
Lemma lands t0 y0 v0 s0 count : order_two co stages -> ~ stuck s0 -> (0 < y0)%Qc -> (forall k, 0 < k <= count -> (0 < free_height (b_g b) y0 v0 h k)%Qc) ->
  free_height (b_g b) y0 v0 h (S count) = 0%Qc -> run (S count) (start t0 [y0; v0] s0) = Throw.
Proof.
  intros SO ST Y0 FH Z. assert (Y : (0 <= y0)%Qc) by (apply Qclt_le_weak; assumption).
  assert (ST' : snd (rk_w s0) = false) by (unfold stuck in ST; destruct (snd (rk_w s0)); [contradiction ST; reflexivity|reflexivity]).
  assert (G : forall n k s, k + n = count -> inv stages h s (free_height (b_g b) y0 v0 h k) (free_speed (b_g b) v0 h k) false -> ~ calm s (free_height (b_g b) y0 v0 h k) -> run (S n) s = Throw).
  { induction n as [|n IH]; intros k s Hk I NC; unfold ball_steps in *; destruct (ball_step1 b co stages h WF SC s _ _ _ I) as [y2 [v2 [TS OC]]];
      destruct (flight b co stages h _ _ _ _ _ SO TS) as [EV EY]; destruct (free_next h (b_g b) y0 v0 k) as [N1 N2]; rewrite <- N2 in EV; rewrite <- N1 in EY; subst y2 v2.
    - assert (k = count) by lia. subst k. rewrite Z in OC. destruct OC as [s1 a1 E I' _ T C C'|E Z0 YP NC'|s1 a1 th E TH T0 T1 NEG T X I' C].
      + destruct (C' NC) as [Q _]. discriminate Q.
      + cbn [rk_steps]. rewrite E. reflexivity.
      + discriminate NEG.
    - destruct OC as [s1 a1 E I' _ T C C'|E Z0 YP NC'|s1 a1 th E TH T0 T1 NEG T X I' C].
      + cbn [rk_steps]. rewrite E. cbn [obind]. destruct (C' NC) as [_ NC2]. specialize (IH (S k) s1 ltac:(lia) I' NC2). cbn [rk_steps] in IH. rewrite IH. reflexivity.
      + cbn [rk_steps]. rewrite E. reflexivity.
      + exfalso. apply (Qclt_not_le _ _ NEG). apply Qclt_le_weak. apply FH. lia. }
  apply (G count 0); [lia| |].
  - destruct (free0 (b_g b) y0 v0) as [-> ->]. apply start_inv; assumption.
  - destruct (free0 (b_g b) y0 v0) as [-> _]. unfold calm. cbn. intros [[_ Q]|[Q _]]; [subst y0; discriminate|discriminate].
Qed.
Lemma stuck_zero : forall count s y v p s' posts, inv stages h s y v p -> (p = true -> y = 0%Qc /\ v = 0%Qc) -> run count s = Ret (s', posts) -> stuck s' ->
  inv stages h s' 0 0 true.
Proof.
  induction count as [|c IH]; intros s y v p s' ps I Z E ST; unfold ball_steps in *; cbn [rk_steps] in E.
  - injection E as <- <-. unfold stuck in ST. assert (P : p = true) by (destruct I as [_ [_ [_ [P _]]]]; congruence). subst p. destruct (Z eq_refl) as [-> ->]. assumption.
  - destruct (ball_step1 b co stages h WF SC s _ _ _ I) as [y2 [v2 [TS OC]]]. destruct OC as [s1 a1 E1 I' _ T C _|E1 Z0 YP NC|s1 a1 th E1 TH T0 T1 NEG T X I' C]; rewrite E1 in E; cbn [obind] in E.
    + destruct (rk_steps _ _ _ _ _ c s1) as [[s2 l2]| |] eqn:E2; try discriminate. injection E as <- <-. apply (IH s1 y2 v2 p s2 l2 I'); try assumption.
      intros ->. destruct (textbook_ball b co stages h true _ _ _ _ _ TS) as [-> ->]. apply Z. reflexivity.
    + discriminate.
    + destruct (rk_steps _ _ _ _ _ c s1) as [[s2 l2]| |] eqn:E2; try discriminate. injection E as <- <-. unfold after_impact in I'.
      destruct (Qcltb _ _); [|destruct (Qcltb _ _)]; (eapply (IH s1); [apply I'; reflexivity| |exact E2|assumption]); auto.
      intros ->. exfalso. destruct (textbook_ball b co stages h true _ _ _ _ _ TS) as [EY _]. subst y2. apply (Qclt_not_le _ _ NEG). apply I.
Qed.
Lemma stays t0 y0 v0 s0 count s1 posts : ~ stuck s0 -> (0 <= y0)%Qc -> run count (start t0 [y0; v0] s0) = Ret (s1, posts) -> stuck s1 ->
  rk_x s1 = [0%Qc; 0%Qc] /\ forall more, exists s' posts', run (count + more) (start t0 [y0; v0] s0) = Ret (s', posts') /\ stuck s' /\ rk_x s' = [0%Qc; 0%Qc] /\ rk_t s' = (rk_t s1 + qn more * h)%Qc.
Proof.
  intros NS Y E ST. assert (P0 : snd (rk_w s0) = false) by (unfold stuck in NS; destruct (snd (rk_w s0)); [contradiction NS; reflexivity|reflexivity]).
  pose proof (stuck_zero count _ _ _ _ _ _ (start_inv b stages h t0 y0 v0 s0 false Y P0) ltac:(discriminate) E ST) as I. split; [apply I|].
  intros more. destruct (stuck_run b co stages h WF SC more s1 _ _ I) as [s' [l [E2 [I' T']]]]. unfold ball_steps in *. rewrite steps_app, E. cbn [obind fst]. rewrite E2. cbn [obind fst snd].
  eexists. eexists. split; [reflexivity|]. split; [apply I'|]. split; [apply I'|exact T'].
Qed.
Lemma hangs t0 y0 v0 s0 count : stuck s0 -> (0 <= y0)%Qc ->
  exists s' posts, run count (start t0 [y0; v0] s0) = Ret (s', posts) /\ rk_x s' = [y0; v0] /\ rk_t s' = (t0 + qn count * h)%Qc.
Proof.
  intros ST Y. destruct (stuck_run b co stages h WF SC count _ _ _ (start_inv b stages h t0 y0 v0 s0 true Y ST)) as [s' [l [E [I T]]]]. exists s', l. split; [assumption|]. split; [apply I|exact T].
Qed.
Lemma comes_to_rest t0 y0 v0 s0 : order_two co stages -> (0 < b_g b)%Qc -> (0 <= b_r b)%Qc -> (b_r b < 1)%Qc -> ~ stuck s0 -> (0 <= y0)%Qc ->
  exists n, forall count, n <= count ->
    run count (start t0 [y0; v0] s0) = Throw \/ exists s' posts, run count (start t0 [y0; v0] s0) = Ret (s', posts) /\ stuck s' /\ rk_x s' = [0%Qc; 0%Qc].
Proof.
  intros SO G R0 R1 ST Y. apply (rests_any b co stages h WF SC HP SO G R0 R1 _ y0 v0). apply start_inv; [assumption|]. unfold stuck in ST. destruct (snd (rk_w s0)); [contradiction ST; reflexivity|reflexivity].
Qed.
Lemma rests_safely t0 y0 v0 s0 : order_two co stages -> (0 < b_g b)%Qc -> (0 <= b_r b)%Qc -> (b_r b < 1)%Qc -> ~ stuck s0 -> (0 <= y0)%Qc ->
  y0 = 0%Qc \/ (forall k, 0 < k -> free_height (b_g b) y0 v0 h k <> 0%Qc) ->
  exists n, forall count, n <= count -> exists s' posts, run count (start t0 [y0; v0] s0) = Ret (s', posts) /\ stuck s' /\ rk_x s' = [0%Qc; 0%Qc].
Proof.
  intros SO G R0 R1 ST Y C. destruct (comes_to_rest t0 y0 v0 s0 SO G R0 R1 ST Y) as [n H]. exists n. intros count Hc. destruct (H count Hc) as [E|?]; [|assumption].
  exfalso. destruct C as [->|C]; [destruct (from_plane t0 v0 s0 count) as [? [? E2]]|destruct (not_exact t0 y0 v0 s0 count SO ST Y C) as [? [? E2]]]; congruence.
Qed.
End Ball.

Lemma chain_motion n c0 c2 f t x : length x = 2 * n -> exists y, cpl_rhs (N:=QcNum) n c0 c2 f t x = Ret y /\ length y = 2 * n /\
  forall i, i < n -> cmp_ y i = cmp_ x (n + i) /\ cmp_ y (n + i) = (tension n c0 c2 f x (i + 1) - tension n c0 c2 f x i)%Qc.
Proof.
  intros L. destruct (cpl_ok n c0 c2 f t x L) as [y [E [Ly H]]]. exists y. split; [exact E|]. split; [exact Ly|]. intros i Hi. destruct (H i Hi) as [H1 H2]. split; [exact H1|].
  rewrite H2. unfold mass_force, tension, cpl_force. replace (i =? n) with false by (symmetry; apply Nat.eqb_neq; lia). change (nT QcNum) with Qc in *. cbn [nmul nadd QcNum]. destruct (i + 1 =? n); ring.
Qed.
