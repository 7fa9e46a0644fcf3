(** ConvFacts5.v - the statements of PropConv.v. *)
From Coq Require Import List Arith Lia Bool ZArith QArith Qcanon Reals Lra Qreals.
From Verif Require Import Base BaseFacts VecModel VOps RkModel RkSpec StepModel StepSpec ConvSpec ConvFacts ConvFacts2 ConvFacts3 ConvFacts4 RkFacts4 RkFacts5 RkFacts6 RkFacts7.
Import ListNotations.
Local Open Scope R_scope.

Lemma good_of {W : Type} n f (w : W) : sized n f -> good_rhs (N:=RNum) n (rhs_of f w).
Proof. intros SZ t x Lx. exists (f t x). split; [reflexivity|apply SZ; assumption]. Qed.
Lemma total_repeat h c : total (repeat h c) = INR c * h.
Proof. induction c as [|c I]; [simpl; ring|]. rewrite S_INR. simpl total. rewrite I. ring. Qed.
Lemma path_time co stages n ix F s l s' : path co stages n ix F s l s' -> fst s' = fst s + total l.
Proof. induction 1 as [s|s h s1 l s2 [E _] _ I]; simpl; [ring|]. rewrite I, E. ring. Qed.

(** one_step is the textbook step *)
Lemma one_step_tstep f co stages n h t x y : wf_table co stages 1 -> shortcut_ok co stages -> sized n f -> length x = n ->
  one_step f co n h t x = Ret y -> tstep co stages n 0 (fun t x => Ret (f t x)) h (t, x) (t + h, y).
Proof.
  intros WF SC SZ Lx E. destruct (rk_steps_path (rhs_of (W:=unit) f) co stages n h WF SC tt (good_of n f tt SZ) 1 (mkRk (N:=RNum) t x None out_empty tt)) as [s' [posts [E1 [_ P]]]];
    [reflexivity|split; [exact Lx|left; reflexivity]|].
  unfold one_step in E. rewrite E1 in E. cbn [obind fst] in E. injection E as <-. simpl repeat in P. apply path_inv in P. destruct P as [s1 [TS P1]]. apply path_inv in P1. subst s1.
  pose proof (proj1 TS) as TT. simpl in TT. rewrite TT in TS. exact TS.
Qed.
Lemma errors_accumulate (W : Type) f n L co stages h : wf_table co stages 1 -> shortcut_ok co stages -> sized n f -> 0 <= L -> lipschitz_x n L f -> 0 <= h ->
  forall t0 x0 (s0 : rkst RNum W) count (z : nat -> list R) d eps, length x0 = n -> 0 <= d -> 0 <= eps -> near n x0 (z 0%nat) d ->
  (forall i, (i < count)%nat -> length (z i) = n /\ exists y, one_step f co n h (t0 + INR i * h) (z i) = Ret y /\ near n y (z (S i)) eps) ->
  exists s' posts, rk_steps (N:=RNum) no_events (rhs_of f) co n h count (rk_set (N:=RNum) no_events t0 x0 s0) = Ret (s', posts) /\
    near n (rk_x s') (z count) ((1 + h * growth co stages 0 L h) ^ count * d + eps * rsum count (fun k => (1 + h * growth co stages 0 L h) ^ k)).
Proof.
  intros WF SC SZ HL LIP Hh t0 x0 s0 count z d eps Lx Hd He NR Hz.
  destruct (fixed_path (rhs_of f) co stages n h WF SC (rk_w s0) t0 x0 s0 count (good_of n f _ SZ) eq_refl Lx) as [s' [posts [E P]]].
  exists s', posts. split; [exact E|].
  refine (accumulate co stages n 0 f L HL LIP h eps Hh count (t0, x0) (rk_t s', rk_x s') z d Hd He P NR _).
  intros i Hi. destruct (Hz i Hi) as [Lz [y [EY NY]]]. exists y. split; [|assumption]. exact (one_step_tstep f co stages n h _ (z i) y WF SC SZ Lz EY).
Qed.
Lemma path_spread co stages n ix f L h : 0 <= L -> lipschitz_x n L f -> 0 <= h -> forall count s s' r r' d, 0 <= d -> near n (snd s) (snd r) d -> fst s = fst r ->
  path co stages n ix (fun t x => Ret (f t x)) s (repeat h count) s' -> path co stages n ix (fun t x => Ret (f t x)) r (repeat h count) r' ->
  near n (snd s') (snd r') ((1 + h * growth co stages ix L h) ^ count * d).
Proof.
  intros HL LIP Hh. induction count as [|c I]; intros s s' r r' d Hd NR T0 P Q.
  - apply path_inv in P, Q. simpl in P, Q. rewrite P, Q. simpl. rewrite Rmult_1_l. assumption.
  - simpl in P, Q. apply path_inv in P. destruct P as [s1 [TS P]]. apply path_inv in Q. destruct Q as [r1 [TR Q]].
    destruct s as [t x], r as [t2 y], s1 as [t1 x1], r1 as [u1 y1]. simpl in T0, NR. subst t2. pose proof (proj1 TS) as E1. pose proof (proj1 TR) as E2. simpl in E1, E2. subst t1 u1.
    pose proof (step_spread co stages n ix f L LIP x y t h x1 y1 d Hh Hd NR TS TR) as N1.
    assert (G0 : 0 <= h * growth co stages ix L h) by (apply Rmult_le_pos; [assumption|apply growth_nonneg; assumption]).
    assert (D1 : 0 <= (1 + h * growth co stages ix L h) * d) by (apply Rmult_le_pos; lra).
    eapply near_weaken; [exact (I (t + h, x1) s' (t + h, y1) r' _ D1 N1 eq_refl P Q)|]. simpl. right. ring.
Qed.
Lemma two_runs (W : Type) f n L co stages h : wf_table co stages 1 -> shortcut_ok co stages -> sized n f -> 0 <= L -> lipschitz_x n L f -> 0 <= h ->
  forall t0 x0 y0 (s0 r0 : rkst RNum W) count d, length x0 = n -> length y0 = n -> 0 <= d -> near n x0 y0 d ->
  exists s' posts r' posts', rk_steps (N:=RNum) no_events (rhs_of f) co n h count (rk_set (N:=RNum) no_events t0 x0 s0) = Ret (s', posts) /\
    rk_steps (N:=RNum) no_events (rhs_of f) co n h count (rk_set (N:=RNum) no_events t0 y0 r0) = Ret (r', posts') /\
    near n (rk_x s') (rk_x r') ((1 + h * growth co stages 0 L h) ^ count * d).
Proof.
  intros WF SC SZ HL LIP Hh t0 x0 y0 s0 r0 count d Lx Ly Hd NR.
  destruct (fixed_path (rhs_of f) co stages n h WF SC (rk_w s0) t0 x0 s0 count (good_of n f _ SZ) eq_refl Lx) as [s' [posts [E P]]].
  destruct (fixed_path (rhs_of f) co stages n h WF SC (rk_w r0) t0 y0 r0 count (good_of n f _ SZ) eq_refl Ly) as [r' [posts' [E' P']]].
  exists s', posts, r', posts'. split; [exact E|]. split; [exact E'|].
  exact (path_spread co stages n 0 f L h HL LIP Hh count (t0, x0) (rk_t s', rk_x s') (t0, y0) (rk_t r', rk_x r') d Hd NR eq_refl P P').
Qed.

Lemma Forall_repeat {A} (P : A -> Prop) a c : ((0 < c)%nat -> P a) -> Forall P (repeat a c).
Proof. induction c as [|c I]; intros H; [constructor|]. simpl. constructor; [apply H; lia|apply I; intros; apply H; lia]. Qed.
Lemma total_le l h : Forall (fun a => 0 < a) l -> In h l -> h <= total l.
Proof.
  induction l as [|a l I]; intros F []; inversion F as [|b m F1 F2]; subst; simpl.
  - assert (0 <= total l); [|lra]. clear - F2. induction F2; simpl; lra.
  - specialize (I F2 H). lra.
Qed.
Lemma path_error co stages n ix f L M X t0 T delta : consistent co stages ix delta -> sized n f -> 0 <= L -> lipschitz n L f -> 0 <= T -> 0 <= M ->
  solves n f X t0 (t0 + T) -> (forall t j, t0 <= t <= t0 + T -> (j < n)%nat -> Rabs (cmpR (f t (X t)) j) <= M) ->
  forall l x0 s' d H, path co stages n ix (fun t x => Ret (f t x)) (t0, x0) l s' -> Forall (fun h => 0 < h <= H) l -> total l <= T ->
    length x0 = n -> 0 <= d -> near n x0 (X t0) d -> 0 <= H ->
    fst s' = t0 + total l /\ near n (snd s') (X (fst s')) (exp (growth co stages ix L T * T) * (d + T * (local_const co stages ix L M T * H + M * delta))).
Proof.
  intros CO SZ HL LIP HT HM SO HB l x0 s' d H P FA TL Lx Hd NR HH.
  assert (D0 : 0 <= delta) by (eapply Rle_trans; [apply Rabs_pos|exact CO]).
  assert (POS : Forall (fun a => 0 < a) l) by (eapply Forall_impl; [|exact FA]; intros a A; lra).
  assert (TN : 0 <= total l). { clear - POS. induction POS; simpl; lra. }
  destruct (global_error co stages n ix f L M T delta X SZ HL HM LIP CO l (t0, x0) s' d P) with (hm := H) as [E N].
  - apply Forall_forall. intros h Hin. split; [exact (proj1 (Forall_forall _ _) POS h Hin)|]. pose proof (total_le l h POS Hin). lra.
  - assumption.
  - assumption.
  - exact Lx.
  - intros u Hu. apply SO. simpl in Hu. lra.
  - intros u j Hu Hj. apply HB; [simpl in Hu; lra|assumption].
  - exact NR.
  - eapply Forall_impl; [|exact FA]. intros a A. lra.
  - split; [exact E|]. eapply near_weaken; [exact N|].
    assert (G0 : 0 <= growth co stages ix L T) by (apply growth_nonneg; assumption). assert (K0 : 0 <= local_const co stages ix L M T) by (apply local_const_nonneg; assumption).
    set (G := growth co stages ix L T) in *. set (K := local_const co stages ix L M T) in *.
    assert (C0 : 0 <= K * H + M * delta) by (assert (0 <= K * H) by (apply Rmult_le_pos; assumption); assert (0 <= M * delta) by (apply Rmult_le_pos; assumption); lra).
    assert (A1 : total l * (K * H + M * delta) <= T * (K * H + M * delta)) by (apply Rmult_le_compat_r; assumption).
    assert (A2 : 0 <= total l * (K * H + M * delta)) by (apply Rmult_le_pos; assumption).
    apply Rmult_le_compat; [left; apply exp_pos|lra| |lra].
    assert (G * total l <= G * T) by (apply Rmult_le_compat_l; assumption). destruct (Rle_lt_or_eq_dec _ _ H0) as [Q|Q]; [left; apply exp_increasing; assumption|rewrite Q; lra].
Qed.
Lemma fixed_error f n L M X t0 T co stages delta : wf_table co stages 1 -> shortcut_ok co stages -> consistent co stages 0 delta ->
  sized n f -> 0 <= L -> lipschitz n L f -> 0 <= T -> 0 <= M -> solves n f X t0 (t0 + T) ->
  (forall t j, t0 <= t <= t0 + T -> (j < n)%nat -> Rabs (cmpR (f t (X t)) j) <= M) ->
  exists K, 0 <= K /\ forall (W : Type) (s0 : rkst RNum W) h count x0 d, 0 < h -> INR count * h <= T -> length x0 = n -> 0 <= d -> near n x0 (X t0) d ->
  exists s' posts, rk_steps (N:=RNum) no_events (rhs_of f) co n h count (rk_set (N:=RNum) no_events t0 x0 s0) = Ret (s', posts) /\
    rk_t s' = t0 + INR count * h /\ near n (rk_x s') (X (rk_t s')) (exp (growth co stages 0 L T * T) * (d + T * (K * h + M * delta))).
Proof.
  intros WF SC CO SZ HL LIP HT HM SO HB. exists (local_const co stages 0 L M T). split; [apply local_const_nonneg; assumption|].
  intros W s0 h count x0 d Hh HC Lx Hd NR.
  destruct (fixed_path (rhs_of f) co stages n h WF SC (rk_w s0) t0 x0 s0 count (good_of n f _ SZ) eq_refl Lx) as [s' [posts [E P]]].
  exists s', posts. split; [exact E|].
  assert (FA : Forall (fun a => 0 < a <= h) (repeat h count)) by (apply Forall_repeat; intros _; lra).
  assert (TL : total (repeat h count) <= T) by (rewrite total_repeat; assumption).
  assert (HH : 0 <= h) by lra.
  destruct (path_error co stages n 0 f L M X t0 T delta CO SZ HL LIP HT HM SO HB (repeat h count) x0 (rk_t s', rk_x s') d h P FA TL Lx Hd NR HH) as [E1 N].
  simpl in E1. rewrite total_repeat in E1. split; assumption.
Qed.
Lemma adaptive_error f n L M X t0 T (c : erkcfg RNum) stages delta : e_n c = n -> (e_mode c < 2)%nat ->
  wf_table (e_co c) stages 2 -> shortcut_ok (e_co c) stages -> consistent (e_co c) stages (e_mode c) delta ->
  sized n f -> 0 <= L -> lipschitz n L f -> 0 <= T -> 0 <= M -> solves n f X t0 (t0 + T) ->
  (forall t j, t0 <= t <= t0 + T -> (j < n)%nat -> Rabs (cmpR (f t (X t)) j) <= M) ->
  exists K, 0 <= K /\ forall (W : Type) (s0 s' : rkst RNum W) l H x0 d, length x0 = n -> 0 <= d -> near n x0 (X t0) d ->
    adaptive_run (rhs_of f) c (erk_set (N:=RNum) no_events t0 x0 s0) l s' -> Forall (fun h => 0 < h <= H) l -> 0 <= H -> total l <= T ->
    rk_t s' = t0 + total l /\ near n (rk_x s') (X (rk_t s')) (exp (growth (e_co c) stages (e_mode c) L T * T) * (d + T * (K * H + M * delta))).
Proof.
  intros EN MD WF SC CO SZ HL LIP HT HM SO HB. exists (local_const (e_co c) stages (e_mode c) L M T). split; [apply local_const_nonneg; assumption|].
  intros W s0 s' l H x0 d Lx Hd NR RUN FA HH TL. subst n.
  pose proof (adaptive_path (rhs_of f) c stages (rk_w s0) WF SC MD (good_of (e_n c) f _ SZ) (erk_set (N:=RNum) no_events t0 x0 s0) l s' RUN) as P.
  assert (RD : readyA c stages (rk_w s0) (erk_set (N:=RNum) no_events t0 x0 s0)) by (split; [exact Lx|]; split; [reflexivity|left; reflexivity]).
  destruct (path_error (e_co c) stages (e_n c) (e_mode c) f L M X t0 T delta CO SZ HL LIP HT HM SO HB l x0 (rk_t s', rk_x s') d H (P RD) FA TL Lx Hd NR HH) as [E1 N].
  split; assumption.
Qed.

(** the slope along a solution on a closed interval is bounded *)
Lemma solution_bounded n f X t0 t1 : t0 <= t1 -> solves n f X t0 t1 -> exists B, 0 <= B /\ forall t j, t0 <= t <= t1 -> (j < n)%nat -> Rabs (cmpR (X t) j) <= B.
Proof.
  intros Ht SO. assert (G : forall m, (m <= n)%nat -> exists B, 0 <= B /\ forall t j, t0 <= t <= t1 -> (j < m)%nat -> Rabs (cmpR (X t) j) <= B); [|exact (G n (le_n _))].
  induction m as [|m I]; intros Hm; [exists 0; split; [lra|intros; lia]|]. destruct I as [B [B0 HB]]; [lia|].
  destruct (continuity_ab_maj (fun t => Rabs (cmpR (X t) m)) t0 t1 Ht) as [p [HP _]].
  { intros c Hc. apply (continuity_pt_comp (fun t => cmpR (X t) m) Rabs); [|apply Rcontinuity_abs].
    apply derivable_continuous_pt. exists (cmpR (f c (X c)) m). apply (proj2 (SO c Hc)). lia. }
  exists (Rmax B (Rabs (cmpR (X p) m))). split; [eapply Rle_trans; [exact B0|apply Rmax_l]|]. intros t j Hj Hjm.
  destruct (Nat.eq_dec j m) as [->|NE]; [eapply Rle_trans; [exact (HP t Hj)|apply Rmax_r]|]. eapply Rle_trans; [apply HB; [assumption|lia]|apply Rmax_l].
Qed.
Lemma vector_bounded (v : list R) n : exists B, 0 <= B /\ forall j, (j < n)%nat -> Rabs (cmpR v j) <= B.
Proof.
  induction n as [|n [B [B0 HB]]]; [exists 0; split; [lra|intros; lia]|]. exists (Rmax B (Rabs (cmpR v n))). split; [eapply Rle_trans; [exact B0|apply Rmax_l]|].
  intros j Hj. destruct (Nat.eq_dec j n) as [->|NE]; [apply Rmax_r|]. eapply Rle_trans; [apply HB; lia|apply Rmax_l].
Qed.
Lemma slope_bounded n f L X t0 t1 : t0 <= t1 -> 0 <= L -> lipschitz n L f -> solves n f X t0 t1 ->
  exists M, 0 <= M /\ forall t j, t0 <= t <= t1 -> (j < n)%nat -> Rabs (cmpR (f t (X t)) j) <= M.
Proof.
  intros Ht HL LIP SO. destruct (solution_bounded n f X t0 t1 Ht SO) as [B [B0 HB]].
  destruct (vector_bounded (f t0 (repeat 0 n)) n) as [V [V0 HV]].
  exists (V + L * ((t1 - t0) + B)). assert (0 <= L * ((t1 - t0) + B)) by (apply Rmult_le_pos; lra). split; [lra|].
  intros t j Hj Hjn. assert (LT : length (X t) = n) by (apply SO; assumption).
  assert (NR : near n (X t) (repeat 0 n) B).
  { intros i Hi. unfold cmpR at 2. rewrite nth_repeat. rewrite Rminus_0_r. apply HB; assumption. }
  pose proof (LIP t t0 (X t) (repeat 0 n) B LT (repeat_length _ _) NR j Hjn) as K. rewrite (Rabs_right (t - t0)) in K by lra.
  replace (cmpR (f t (X t)) j) with (cmpR (f t0 (repeat 0 n)) j + (cmpR (f t (X t)) j - cmpR (f t0 (repeat 0 n)) j)) by ring.
  eapply Rle_trans; [apply Rabs_triang|]. apply Rplus_le_compat; [apply HV; assumption|]. eapply Rle_trans; [exact K|]. apply Rmult_le_compat_l; lra.
Qed.
Lemma convergence f n L X t0 T co stages : wf_table co stages 1 -> shortcut_ok co stages -> consistent co stages 0 0 ->
  sized n f -> 0 <= L -> lipschitz n L f -> 0 <= T -> solves n f X t0 (t0 + T) ->
  exists C, 0 <= C /\ forall (W : Type) (s0 : rkst RNum W) h count x0 d, 0 < h -> INR count * h <= T -> length x0 = n -> 0 <= d -> near n x0 (X t0) d ->
  exists s' posts, rk_steps (N:=RNum) no_events (rhs_of f) co n h count (rk_set (N:=RNum) no_events t0 x0 s0) = Ret (s', posts) /\
    rk_t s' = t0 + INR count * h /\ near n (rk_x s') (X (rk_t s')) (C * (d + h)).
Proof.
  intros WF SC CO SZ HL LIP HT SO. assert (H01 : t0 <= t0 + T) by lra. destruct (slope_bounded n f L X t0 (t0 + T) H01 HL LIP SO) as [M [HM HB]].
  destruct (fixed_error f n L M X t0 T co stages 0 WF SC CO SZ HL LIP HT HM SO HB) as [K [K0 HK]].
  exists (exp (growth co stages 0 L T * T) * (1 + T * K)). assert (TK : 0 <= T * K) by (apply Rmult_le_pos; assumption).
  split; [apply Rmult_le_pos; [left; apply exp_pos|lra]|]. intros W s0 h count x0 d Hh HC Lx Hd NR.
  destruct (HK W s0 h count x0 d Hh HC Lx Hd NR) as [s' [posts [E [ET N]]]]. exists s', posts. split; [assumption|]. split; [assumption|].
  eapply near_weaken; [exact N|]. rewrite Rmult_0_r, Rplus_0_r, Rmult_assoc. apply Rmult_le_compat_l; [left; apply exp_pos|].
  assert (0 <= T * K * d) by (apply Rmult_le_pos; assumption). lra.
Qed.

(** * The tables of the library *)
Lemma q2r_0 : q2r 0%Qc = 0. Proof. unfold q2r. simpl. apply RMicromega.Q2R_0. Qed.
Lemma q2r_plus a b : q2r (a + b)%Qc = q2r a + q2r b.
Proof. unfold q2r. rewrite <- Q2R_plus. apply Qeq_eqR. apply (Qred_correct (this a + this b)). Qed.
Lemma q2r_minus a b : q2r (a - b)%Qc = q2r a - q2r b.
Proof.
  unfold q2r. rewrite <- Q2R_minus. apply Qeq_eqR. change (this (a - b)%Qc) with (Qred (this a + Qred (- this b))). rewrite !Qred_correct. reflexivity.
Qed.
Lemma q2r_le a b : (a <= b)%Qc -> q2r a <= q2r b.
Proof. intros H. apply Qle_Rle. exact H. Qed.
Lemma q2r_sum n g : q2r (qsum n g) = rsum n (fun i => q2r (g i)).
Proof. induction n as [|n I]; simpl; [apply q2r_0|]. rewrite q2r_plus, I. reflexivity. Qed.
Lemma BR_tab co stages ix s : BR_ (tabR co) stages ix s = q2r (B_ co stages ix s).
Proof. unfold BR_, B_, tabR. simpl. rewrite <- q2r_0. apply (map_nth q2r). Qed.
Lemma wf_tab co stages nx : wf_table co stages nx -> wf_table (tabR co) stages nx.
Proof. intros [H1 [H2 [H3 H4]]]. unfold wf_table, tabR. cbn [co_a co_b co_c]. rewrite !map_length. auto. Qed.
Lemma sc_tab co stages : shortcut_ok co stages -> shortcut_ok (tabR co) stages.
Proof.
  intros [H|[ix [E [ST [RR [z [Z1 Z2]]]]]]]; [left; exact H|]. right. exists ix. split; [exact E|]. split; [exact ST|]. split.
  - intros i Hi. unfold tabR. cbn [co_a co_b]. rewrite !nth_error_map. exact (f_equal (option_map q2r) (RR i Hi)).
  - exists (q2r z). split; [unfold tabR; cbn [co_b]; rewrite nth_error_map; exact (f_equal (option_map q2r) Z1)|].
    simpl in Z2. apply Qceqb_eq in Z2. subst z. simpl. unfold Reqb. destruct (Req_EM_T (q2r 0%Qc) 0) as [_|NE]; [reflexivity|]. elim NE. apply q2r_0.
Qed.
Lemma cons_tab co stages ix p : order_conditions co stages ix (S p) -> consistent (tabR co) stages ix 0.
Proof.
  intros OC. unfold consistent. pose proof (OC (Node []) ltac:(simpl; lia)) as W. unfold weight in W. simpl in W.
  rewrite (rsum_ext stages _ (fun s => q2r (B_ co stages ix s))) by (intros; apply BR_tab). rewrite <- (q2r_sum stages (fun s => B_ co stages ix s)).
  assert (E : qsum stages (fun s => B_ co stages ix s) = 1%Qc).
  { transitivity (qsum stages (fun i => B_ co stages ix i * 1)%Qc); [apply qsum_ext; intros; ring|]. rewrite W. reflexivity. }
  rewrite E. unfold q2r. simpl. rewrite RMicromega.Q2R_1, Rminus_eq_0, Rabs_R0. lra.
Qed.
Lemma cons_near co stages ix (e : Qc) p : (forall t, (order t <= S p)%nat -> (Qcabs (weight co stages ix t - 1 / qn (density t)) <= e)%Qc) -> consistent (tabR co) stages ix (q2r e).
Proof.
  intros OC. unfold consistent. pose proof (OC (Node []) ltac:(simpl; lia)) as W. unfold weight in W. cbn [stage_weight] in W.
  rewrite (rsum_ext stages _ (fun s => q2r (B_ co stages ix s))) by (intros; apply BR_tab). rewrite <- (q2r_sum stages (fun s => B_ co stages ix s)).
  assert (E : (qsum stages (fun i => B_ co stages ix i * 1) - 1 / qn (density (Node [])) = qsum stages (fun s => B_ co stages ix s) - 1)%Qc).
  { replace (1 / qn (density (Node [])))%Qc with 1%Qc by (apply Qc_is_canon; reflexivity). f_equal. apply qsum_ext. intros. ring. }
  rewrite E in W. set (a := qsum stages (fun s => B_ co stages ix s)) in *.
  assert (R1 : q2r 1%Qc = 1) by (unfold q2r; simpl; apply RMicromega.Q2R_1). rewrite <- R1, <- q2r_minus.
  unfold Qcabs in W. destruct (Qcltb (a - 1) 0)%Qc eqn:LT.
  - apply q2r_le in W. replace (- (a - 1))%Qc with (0 - (a - 1))%Qc in W by ring. rewrite q2r_minus, q2r_0 in W.
    apply Qcltb_lt in LT. apply Qclt_le_weak in LT. apply q2r_le in LT. rewrite q2r_0 in LT. rewrite Rabs_left1 by assumption. lra.
  - apply q2r_le in W. assert (GE : (0 <= a - 1)%Qc). { apply Qcnot_lt_le. intros K. apply Qcltb_lt in K. congruence. }
    apply q2r_le in GE. rewrite q2r_0 in GE. rewrite Rabs_right by lra. exact W.
Qed.
Lemma real_tables :
  (wf_table (tabR tab_euler) 1 1 /\ shortcut_ok (tabR tab_euler) 1 /\ consistent (tabR tab_euler) 1 0 0) /\
  (wf_table (tabR tab_rk4) 4 1 /\ shortcut_ok (tabR tab_rk4) 4 /\ consistent (tabR tab_rk4) 4 0 0) /\
  (wf_table (tabR tab_dopri45) 7 2 /\ shortcut_ok (tabR tab_dopri45) 7 /\ forall ix, (ix < 2)%nat -> consistent (tabR tab_dopri45) 7 ix 0) /\
  (wf_table (tabR tab_dopri56) 8 2 /\ shortcut_ok (tabR tab_dopri56) 8 /\ forall ix, (ix < 2)%nat -> consistent (tabR tab_dopri56) 8 ix 0) /\
  (wf_table (tabR tab_dopri78) 13 2 /\ shortcut_ok (tabR tab_dopri78) 13 /\ forall ix, (ix < 2)%nat -> consistent (tabR tab_dopri78) 13 ix (q2r (qc 1 100000000000000000))).
Proof.
  split; [split; [exact (wf_tab _ _ _ wf_euler)|split; [exact (sc_tab _ _ (sc_neg tab_euler 1 eq_refl))|exact (cons_tab _ _ _ _ ord_euler)]]|].
  split; [split; [exact (wf_tab _ _ _ wf_rk4)|split; [exact (sc_tab _ _ (sc_neg tab_rk4 4 eq_refl))|exact (cons_tab _ _ _ _ ord_rk4)]]|].
  split; [split; [exact (wf_tab _ _ _ wf_dopri45)|split; [exact (sc_tab _ _ sc_dopri45)|]]; intros [|[|ix]] Hx; [exact (cons_tab _ _ _ _ ord_dopri45_hi)|exact (cons_tab _ _ _ _ ord_dopri45_lo)|lia]|].
  split; [split; [exact (wf_tab _ _ _ wf_dopri56)|split; [exact (sc_tab _ _ (sc_neg tab_dopri56 8 eq_refl))|]]; intros [|[|ix]] Hx; [exact (cons_tab _ _ _ _ ord_dopri56_hi)|exact (cons_tab _ _ _ _ ord_dopri56_lo)|lia]|].
  split; [exact (wf_tab _ _ _ wf_dopri78)|split; [exact (sc_tab _ _ (sc_neg tab_dopri78 13 eq_refl))|]]. intros [|[|ix]] Hx; [exact (cons_near _ _ _ _ _ ord_dopri78_hi)|exact (cons_near _ _ _ _ _ ord_dopri78_lo)|lia].
Qed.
