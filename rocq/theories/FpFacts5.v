(** FpFacts5.v - the solvers in rounded arithmetic: rounding errors of whole runs, order of convergence. *)
From Coq Require Import List Arith Lia Bool ZArith QArith Qcanon Reals Lra.
From Verif Require Import Base BaseFacts VecModel VOps NewtFacts NewtFacts4 RkModel RkSpec RkFacts RkFacts2 RkFacts3 StepModel StepSpec ConvSpec ConvFacts ConvFacts2 ConvFacts3 ConvFacts4 ConvFacts5 HighSpec HighFacts5 FpSpec FpFacts FpFacts2 FpFacts3 FpFacts4.
Import ListNotations.
Local Open Scope R_scope.

Lemma wf_tabF rnd co stages nx : wf_table co stages nx -> wf_table (tabF rnd co) stages nx.
Proof. intros [W1 [W2 [W3 W4]]]. split; [assumption|]. unfold tabF. cbn [co_a co_b co_c]. split; [exact (eq_trans (map_length rnd (co_a co)) W2)|]. split; [exact (eq_trans (map_length rnd (co_b co)) W3)|]. transitivity (length (co_c co) + 1)%nat; [|assumption]. f_equal. exact (map_length rnd (co_c co)). Qed.
Lemma sc_tabF rnd co stages : rnd 0 = 0 -> shortcut_ok co stages -> shortcut_ok (tabF rnd co) stages.
Proof.
  intros Z0 [NEG|[ix [EL [ST [RR [z [Ez Zz]]]]]]]; [left; exact NEG|]. right. exists ix. split; [exact EL|]. split; [assumption|]. split.
  - intros i Hi. unfold tabF. cbn [co_a co_b]. change (nT (FNum rnd)) with R. change (nT RNum) with R in *. rewrite !nth_error_map. rewrite (RR i Hi). reflexivity.
  - exists (rnd z). split.
    + unfold tabF. cbn [co_b]. change (nT (FNum rnd)) with R. change (nT RNum) with R in *. rewrite nth_error_map. rewrite Ez. reflexivity.
    + apply Reqb_eq in Zz. change (n0 RNum) with 0 in Zz. rewrite Zz, Z0. change (Reqb 0 0 = true). unfold Reqb. destruct (Req_EM_T 0 0); [reflexivity|congruence].
Qed.
Lemma good_ofF {W : Type} rnd n g (w : W) : sized n g -> good_rhs (N:=FNum rnd) n (rhs_ofF rnd g w).
Proof. intros SZ t x Lx. exists (g t x). split; [reflexivity|apply SZ; exact Lx]. Qed.
Lemma bound_near n x y b d : bound n y b -> near n x y d -> bound n x (b + d).
Proof. intros BY NR j Hj. rewrite Rplus_comm. eapply abs_from; [apply NR; assumption|apply BY; assumption]. Qed.

(** the same solver, the same steps: rounded against exact *)
Lemma rounded_runs f n L t0 T b0 co stages : wf_table co stages 1 -> shortcut_ok co stages -> sized n f -> 0 <= L -> lipschitz n L f -> 0 <= T -> 0 <= b0 ->
  exists C, 0 <= C /\ forall (W W' : Type) rnd u eta phi g (s0 : rkst (FNum rnd) W) (r0 : rkst RNum W') h count x0,
  rounds rnd u eta -> 0 <= u -> 0 <= eta -> 0 <= phi <= 1 -> sized n g -> accurate n phi f g ->
  0 < h -> INR count * h <= T -> INR count * (u + eta) <= 1 -> length x0 = n -> bound n x0 b0 ->
  exists s' posts r' posts', rk_steps (N:=FNum rnd) no_events (rhs_ofF rnd g) (tabF rnd co) n h count (rk_set (N:=FNum rnd) no_events t0 x0 s0) = Ret (s', posts) /\
    rk_steps (N:=RNum) no_events (rhs_of f) co n h count (rk_set (N:=RNum) no_events t0 x0 r0) = Ret (r', posts') /\
    Rabs (rk_t s' - rk_t r') <= C * (INR count * (u + eta)) /\ near n (rk_x s') (rk_x r') (C * (phi + INR count * (u + eta))).
Proof.
  intros WF SC SZ HL LIP HT HB0. destruct (roundoff co stages n 0 f L t0 T b0 SZ HL LIP HT HB0) as [C [C0 HC]]. exists C. split; [assumption|].
  intros W W' rnd u eta phi g s0 r0 h count x0 RO U0 ET0 PH SG AC Hh TL NE Lx BX.
  destruct (fixed_path (rhs_of f) co stages n h WF SC (rk_w r0) t0 x0 r0 count (good_of n f _ SZ) eq_refl Lx) as [r' [posts' [E P]]].
  destruct (fixed_pathN (N:=FNum rnd) (rhs_ofF rnd g) (tabF rnd co) stages n h (wf_tabF rnd co stages 1 WF) (sc_tabF rnd co stages (proj1 RO) SC) (rk_w s0) t0 x0 s0 count (good_ofF rnd n g _ SG) eq_refl Lx) as [s' [posts [EF [_ Q]]]].
  exists s', posts, r', posts'. split; [exact EF|]. split; [exact E|].
  destruct (HC rnd u eta phi g (repeat h count) x0 (rk_t r', rk_x r') (rk_t s', rk_x s') RO U0 ET0 PH AC) as [X1 X2]; try assumption.
  - rewrite repeat_length. assumption.
  - apply Forall_repeat. intros _. assumption.
  - rewrite total_repeat. assumption.
  - rewrite repeat_length in X1, X2. cbn [fst snd] in X1, X2. split; assumption.
Qed.

Section Order.
Context (f : R -> list R -> list R) (n : nat) (L : R) (X : R -> list R) (t0 T : R) (p : nat) (co : coeffs QcNum) (stages ix : nat) (delta : Qc).
Hypothesis Hp : (0 < p)%nat.
Hypothesis OU : order_upto co stages ix p delta.
Hypothesis D1 : (delta <= 1)%Qc.
Hypothesis SZ : sized n f.
Hypothesis HL : 0 <= L.
Hypothesis LIP : lipschitz n L f.
Hypothesis HT : 0 <= T.
Hypothesis SO : solves n f X t0 (t0 + T).
Hypothesis SM : smooth_along n p f X t0 (t0 + T).
Lemma rounded_path : exists C, 0 <= C /\ forall rnd u eta phi g l x0 sf' d Hm, rounds rnd u eta -> 0 <= u -> 0 <= eta -> 0 <= phi <= 1 -> accurate n phi f g ->
  INR (length l) * (u + eta) <= 1 -> Forall (fun h => 0 < h <= Hm) l -> 0 <= Hm -> total l <= T -> length x0 = n -> 0 <= d <= 1 -> near n x0 (X t0) d ->
  pathN (N:=FNum rnd) (tabF rnd (tabR co)) stages n ix (fun t x => Ret (g t x)) (t0, x0) l sf' ->
  Rabs (fst sf' - (t0 + total l)) <= C * (INR (length l) * (u + eta)) /\
  near n (snd sf') (X (t0 + total l)) (C * (d + Hm ^ p + q2r delta + phi + INR (length l) * (u + eta))).
Proof.
  destruct (entries_exist co) as [A [A0 EN]]. assert (AR0 : 0 <= q2r A) by (apply q2r_le in A0; rewrite q2r_0 in A0; exact A0).
  destruct (path_order n p stages ix f X t0 T L (q2r A) Hp SZ HT SO HL LIP AR0 SM) as [C1 [C10 H1]].
  destruct (vector_bounded (X t0) n) as [b [b0 HB]].
  destruct (roundoff (tabR co) stages n ix f L t0 T (b + 1) SZ HL LIP HT) as [C2 [C20 H2]]; [lra|].
  exists (C1 + C2). split; [lra|]. intros rnd u eta phi g l x0 sf' d Hm RO U0 ET0 PH AC NE FA HM TL Lx Hd NR Q.
  destruct (path_exists (tabR co) stages n ix f SZ l (t0, x0) Lx) as [s' P].
  pose proof (table_upto co stages ix p delta A Hp A0 D1 EN OU) as TO.
  destruct (H1 (tabR co) (q2r delta) l x0 s' d Hm TO P FA TL Lx (proj1 Hd) NR HM) as [E1 N1].
  assert (FA0 : Forall (fun h => 0 < h) l) by (eapply Forall_impl; [|exact FA]; intros a Ha; lra).
  assert (BX : bound n x0 (b + 1)). { intros j Hj. pose proof (bound_near n x0 (X t0) b d HB NR j Hj). lra. }
  destruct (H2 rnd u eta phi g l x0 s' sf' RO U0 ET0 PH AC NE FA0 TL Lx BX P Q) as [N2 T2].
  assert (NE0 : 0 <= INR (length l) * (u + eta)) by (apply Rmult_le_pos; [apply pos_INR|lra]).
  assert (DL : 0 <= q2r delta) by apply TO. assert (HP : 0 <= Hm ^ p) by (apply pow_le; assumption).
  rewrite E1 in N1, T2. split.
  - eapply Rle_trans; [exact T2|]. apply Rmult_le_compat_r; [assumption|lra].
  - eapply near_weaken; [eapply near_trans; [exact N2|exact N1]|].
    assert (0 <= C1 * (phi + INR (length l) * (u + eta))) by (apply Rmult_le_pos; lra).
    assert (0 <= C2 * (d + Hm ^ p + q2r delta)) by (apply Rmult_le_pos; lra). lra.
Qed.
End Order.
Lemma order_rounded f n L X t0 T p co stages delta : (0 < p)%nat -> wf_table co stages 1 -> shortcut_ok co stages -> order_upto co stages 0 p delta -> (delta <= 1)%Qc ->
  sized n f -> 0 <= L -> lipschitz n L f -> 0 <= T -> solves n f X t0 (t0 + T) -> smooth_along n p f X t0 (t0 + T) ->
  exists C, 0 <= C /\ forall (W : Type) rnd u eta phi g (s0 : rkst (FNum rnd) W) h count x0 d,
  rounds rnd u eta -> 0 <= u -> 0 <= eta -> 0 <= phi <= 1 -> sized n g -> accurate n phi f g ->
  0 < h -> INR count * h <= T -> INR count * (u + eta) <= 1 -> length x0 = n -> 0 <= d <= 1 -> near n x0 (X t0) d ->
  exists s' posts, rk_steps (N:=FNum rnd) no_events (rhs_ofF rnd g) (tabF rnd (tabR co)) n h count (rk_set (N:=FNum rnd) no_events t0 x0 s0) = Ret (s', posts) /\
    Rabs (rk_t s' - (t0 + INR count * h)) <= C * (INR count * (u + eta)) /\
    near n (rk_x s') (X (t0 + INR count * h)) (C * (d + h ^ p + q2r delta + phi + INR count * (u + eta))).
Proof.
  intros Hp WF SC OU D1 SZ HL LIP HT SO SM. destruct (rounded_path f n L X t0 T p co stages 0 delta Hp OU D1 SZ HL LIP HT SO SM) as [C [C0 HC]]. exists C. split; [assumption|].
  intros W rnd u eta phi g s0 h count x0 d RO U0 ET0 PH SG AC Hh TL NE Lx Hd NR.
  destruct (fixed_pathN (N:=FNum rnd) (rhs_ofF rnd g) (tabF rnd (tabR co)) stages n h (wf_tabF rnd _ stages 1 (wf_tab co stages 1 WF)) (sc_tabF rnd _ stages (proj1 RO) (sc_tab co stages SC)) (rk_w s0) t0 x0 s0 count (good_ofF rnd n g _ SG) eq_refl Lx) as [s' [posts [EF [_ Q]]]].
  exists s', posts. split; [exact EF|].
  destruct (HC rnd u eta phi g (repeat h count) x0 (rk_t s', rk_x s') d h RO U0 ET0 PH AC) as [X1 X2]; try assumption.
  - rewrite repeat_length. assumption.
  - apply Forall_repeat. intros _. lra.
  - lra.
  - rewrite total_repeat. assumption.
  - rewrite repeat_length, total_repeat in X1, X2. cbn [fst snd] in X1, X2. split; assumption.
Qed.
Lemma order_rounded_adaptive f n L X t0 T p co stages ix delta : (0 < p)%nat -> (ix < 2)%nat -> wf_table co stages 2 -> shortcut_ok co stages -> order_upto co stages ix p delta -> (delta <= 1)%Qc ->
  sized n f -> 0 <= L -> lipschitz n L f -> 0 <= T -> solves n f X t0 (t0 + T) -> smooth_along n p f X t0 (t0 + T) ->
  exists C, 0 <= C /\ forall (W : Type) rnd u eta phi g (c : erkcfg (FNum rnd)) (s0 s' : rkst (FNum rnd) W) l H x0 d,
  rounds rnd u eta -> 0 <= u -> 0 <= eta -> 0 <= phi <= 1 -> sized n g -> accurate n phi f g -> e_n c = n -> e_co c = tabF rnd (tabR co) -> e_mode c = ix ->
  adaptive_runN (rhs_ofF rnd g) c (erk_set (N:=FNum rnd) no_events t0 x0 s0) l s' -> Forall (fun h => 0 < h <= H) l -> 0 <= H -> total l <= T ->
  INR (length l) * (u + eta) <= 1 -> length x0 = n -> 0 <= d <= 1 -> near n x0 (X t0) d ->
    Rabs (rk_t s' - (t0 + total l)) <= C * (INR (length l) * (u + eta)) /\
    near n (rk_x s') (X (t0 + total l)) (C * (d + H ^ p + q2r delta + phi + INR (length l) * (u + eta))).
Proof.
  intros Hp HX WF SC OU D1 SZ HL LIP HT SO SM. destruct (rounded_path f n L X t0 T p co stages ix delta Hp OU D1 SZ HL LIP HT SO SM) as [C [C0 HC]]. exists C. split; [assumption|].
  intros W rnd u eta phi g c s0 s' l H x0 d RO U0 ET0 PH SG AC En Ec Em RUN FA HH TL NE Lx Hd NR.
  pose proof (adaptive_pathN (N:=FNum rnd) (rhs_ofF rnd g) c stages (rk_w s0)) as AP. rewrite Ec, Em, En in AP.
  pose proof (AP (wf_tabF rnd _ stages 2 (wf_tab co stages 2 WF)) (sc_tabF rnd _ stages (proj1 RO) (sc_tab co stages SC)) HX (good_ofF rnd n g _ SG) (erk_set (N:=FNum rnd) no_events t0 x0 s0) l s' RUN) as P.
  assert (RD : readyAN c stages (rk_w s0) (erk_set (N:=FNum rnd) no_events t0 x0 s0)) by (split; [rewrite En; exact Lx|]; split; [reflexivity|left; reflexivity]).
  exact (HC rnd u eta phi g l x0 (rk_t s', rk_x s') d H RO U0 ET0 PH AC NE FA HH TL Lx Hd NR (P RD)).
Qed.
