(** IeeeFacts5.v - the adaptive solvers in doubles. *)
From Coq Require Import List Arith Bool ZArith Lia QArith Qcanon Reals Lra.
From Flocq Require Import Core IEEE754.BinarySingleNaN.
From Verif Require Import Base BaseFacts VecModel VOps RkModel RkSpec RkFacts RkFacts3 StepModel StepSpec ConvSpec ConvFacts ConvFacts3 ConvFacts4 ConvFacts5 HighSpec HighFacts5 FpSpec FpFacts FpFacts2 FpFacts3 FpFacts4 FpFacts5 FpFacts6 IfpFacts5 IeeeSpec IeeeFacts IeeeFacts2 IeeeFacts3 IeeeFacts4.
Import ListNotations.
Local Open Scope R_scope.

Lemma state_size_le stages A G h H B : 0 <= A -> 0 <= G -> Rabs h <= H -> state_size stages A G h B <= state_size stages A G H B.
Proof.
  intros A0 G0 HH. unfold state_size, term_size. pose proof (pos_INR stages) as S0. pose proof (Rabs_pos h) as P. rewrite (Rabs_pos_eq H) by lra.
  assert (Rabs h * A <= H * A) by (apply Rmult_le_compat_r; lra).
  assert (G * (2 * (Rabs h * A) + / 2 ^ 53) <= G * (2 * (H * A) + / 2 ^ 53)) by (apply Rmult_le_compat_l; lra).
  assert (INR stages * (2 * (G * (2 * (Rabs h * A) + / 2 ^ 53)) + / 2 ^ 53) <= INR stages * (2 * (G * (2 * (H * A) + / 2 ^ 53)) + / 2 ^ 53)) by (apply Rmult_le_compat_l; lra). lra.
Qed.
Lemma time_size_le A h H S S' : 0 <= A -> Rabs h <= H -> S <= S' -> time_size A h S <= time_size A H S'.
Proof. intros A0 HH HS. unfold time_size. pose proof (Rabs_pos h). rewrite (Rabs_pos_eq H) by lra. assert (Rabs h * A <= H * A) by (apply Rmult_le_compat_r; lra). lra. Qed.
Section Path.
Context (coD : coeffs DNum) (co : coeffs (FNum b64)) (stages n nx ix : nat) (gD : double -> list double -> list double) (g : R -> list R -> list R) (H A B G S : R).
Hypothesis WF : wf_table co stages nx.
Hypothesis SC : shortcut_ok co stages.
Hypothesis IX : (ix < nx)%nat.
Hypothesis TH : table_holds A coD co.
Hypothesis A0 : 0 <= A.
Hypothesis B0 : 0 <= B.
Hypothesis G0 : 0 <= G.
Hypothesis S0 : 0 <= S.
Hypothesis SB : INR stages <= 4096.
Hypothesis RB : state_size stages A G H B <= 2 ^ 1000.
Hypothesis RS : time_size A H S <= 2 ^ 1000.
Hypothesis RH : rhs_holds n (time_size A H S) (state_size stages A G H B) G gD g.
Hypothesis SZ : sized n g.
Notation stepF := (tstepN (N:=FNum b64) co stages n ix (fun t x => Ret (g t x))).
Notation pathF := (pathN (N:=FNum b64) co stages n ix (fun t x => Ret (g t x))).
Lemma step_exists h (s : R * list R) : length (snd s) = n -> exists s', stepF h s s'.
Proof.
  intros L. destruct (compute_allN (N:=FNum b64) co stages n nx (fun t x => Ret (g t x)) (snd s) (fst s) h (out_new stages n nx) WF SC) as (o' & ev & _ & _ & ST & RE).
  - intros t x Lx. exists (g t x). split; [reflexivity|]. apply SZ. exact Lx.
  - exact L.
  - apply out_new_shaped.
  - exists (nadd (FNum b64) (fst s) h, nth ix (o_x2 o') []). split; [reflexivity|]. exists ev, (o_k o'). split; [exact ST|]. apply RE. exact IX.
Qed.
Lemma path_holds (sD sD' : double * list double) lD : pathN (N:=DNum) coD stages n ix (fun t x => Ret (gD t x)) sD lD sD' -> forall l (s : R * list R), Forall2 holds lD l -> Forall (fun h => 0 < h <= H) l ->
  holds (fst sD) (fst s) -> holdsV n (snd sD) (snd s) -> (forall l1 l2 s1, l = l1 ++ l2 -> pathF s l1 s1 -> Rabs (fst s1) <= S /\ bound n (snd s1) B) ->
  exists s', pathF s l s' /\ holds (fst sD') (fst s') /\ holdsV n (snd sD') (snd s').
Proof.
  intros P. pose proof big4 as BG. induction P as [sD|sD hD s1D lD s2D ST _ I]; intros l s F2 FA HT HX BD.
  - inversion F2; subst. exists s. split; [constructor|]. split; assumption.
  - inversion F2 as [|? h ? l' HH F2']; subst. inversion FA as [|? ? Hh FA']; subst.
    destruct (BD [] (h :: l') s eq_refl ltac:(constructor)) as [BT BX].
    destruct (step_exists h s) as (s1 & SF); [apply HX|]. pose proof ST as (TT1 & evD & kD & SD & RED). pose proof SF as (TT2 & ev & k & SFs & REF).
    assert (HA : Rabs h <= H) by (rewrite Rabs_pos_eq; lra). pose proof (state_size_le stages A G h H B A0 G0 HA) as Z1. pose proof (time_size_le A h H S S A0 HA (Rle_refl _)) as Z2.
    assert (RS1 : time_size A h S <= 2 ^ 1000) by lra.
    assert (HT1 : holds (fst s1D) (fst s1)).
    { rewrite TT1, TT2. apply d_add; [exact HT|exact HH|]. eapply Rle_trans; [apply Rabs_triang|]. unfold time_size in RS1. pose proof (pow_R1_Rle 2 1000 ltac:(lra)). assert (0 <= Rabs h * A) by (apply Rmult_le_pos; [apply Rabs_pos|exact A0]). rewrite <- BG. pose proof (Rabs_pos h). lra. }
    assert (HX1 : holdsV n (snd s1D) (snd s1)).
    { refine (result_holds coD co stages n nx gD g hD h A B G S WF TH HH A0 B0 G0 S0 SB _ RS1 _ _ _ _ _ HX BX HT BT evD kD ev k SD SFs ix _ _ IX RED REF); [lra|].
      apply (rhs_holds_le n (time_size A H S) (state_size stages A G H B) G); [exact Z2|exact Z1|lra|exact RH]. }
    destruct (I l' s1 F2' FA' HT1 HX1) as (s' & Q1 & Q2 & Q3).
    { intros l1 l2 s2 El Pl. apply (BD (h :: l1) l2 s2); [rewrite El; reflexivity|]. econstructor; eassumption. }
    exists s'. split; [econstructor; eassumption|]. split; assumption.
Qed.
End Path.
Lemma total_app l1 l2 : total (l1 ++ l2) = total l1 + total l2.
Proof. induction l1 as [|a l I]; cbn [app total]; [ring|]. rewrite I. ring. Qed.
Lemma total_nonneg H l : Forall (fun h => 0 < h <= H) l -> 0 <= total l.
Proof. induction 1 as [|a l Ha _ I]; cbn [total]; lra. Qed.
Lemma adaptive_double f n L X t0 T p co stages ix delta : (0 < p)%nat -> (ix < 2)%nat -> wf_table co stages 2 -> shortcut_ok co stages -> order_upto co stages ix p delta -> (delta <= 1)%Qc ->
  sized n f -> 0 <= L -> lipschitz n L f -> 0 <= T -> solves n f X t0 (t0 + T) -> smooth_along n p f X t0 (t0 + T) -> INR stages <= 4096 ->
  exists C, 0 <= C /\ forall (W : Type) gD g (c : erkcfg DNum) (s0 s' : rkst DNum W) lD l H t0D x0D x0 d phi A B G,
  e_n c = n -> table_holds A (e_co c) (tabF b64 (tabR co)) -> shortcut_ok (e_co c) stages -> e_mode c = ix -> 0 <= A -> 0 <= G -> 0 <= phi <= 1 -> sizedD n gD -> sized n g -> accurate n phi f g ->
  holds t0D t0 -> holdsV n x0D x0 -> adaptive_runN (rhs_ofD gD) c (erk_set (N:=DNum) no_events t0D x0D s0) lD s' -> Forall2 holds lD l -> Forall (fun h => 0 < h <= H) l -> 0 <= H -> total l <= T ->
  INR (length l) * (/ 2 ^ 53 + / 2 ^ 1075) <= 1 -> 0 <= d <= 1 -> near n x0 (X t0) d ->
  let E := C * (d + H ^ p + q2r delta + phi + INR (length l) * (/ 2 ^ 53 + / 2 ^ 1075)) in let S := Rabs t0 + T + C * (INR (length l) * (/ 2 ^ 53 + / 2 ^ 1075)) in
  (forall t, t0 <= t <= t0 + T -> bound n (X t) (B - E)) -> 0 <= B -> state_size stages A G H B <= 2 ^ 1000 -> time_size A H S <= 2 ^ 1000 ->
  rhs_holds n (time_size A H S) (state_size stages A G H B) G gD g ->
  exists t x, holds (rk_t s') t /\ holdsV n (rk_x s') x /\ Rabs (t - (t0 + total l)) <= C * (INR (length l) * (/ 2 ^ 53 + / 2 ^ 1075)) /\ near n x (X (t0 + total l)) E.
Proof.
  intros Hp HX WF SC OU D1 SZ HL LIP HT SO SM SB. destruct (rounded_path f n L X t0 T p co stages ix delta Hp OU D1 SZ HL LIP HT SO SM) as [C [C0 HC]]. exists C. split; [assumption|].
  intros W gD g c s0 s' lD l H t0D x0D x0 d phi A B G En TH SCD Em A0 G0 PH SZD SG AC T0 X0 RUN F2 FA HH TL CW Hd NR E S XB B0 RB RS RH.
  set (w := / 2 ^ 53 + / 2 ^ 1075) in *.
  assert (U0 : 0 <= / 2 ^ 53) by (left; apply Rinv_0_lt_compat, pow_lt; lra). assert (E0 : 0 <= / 2 ^ 1075) by (left; apply Rinv_0_lt_compat, pow_lt; lra).
  assert (w0 : 0 <= w) by (unfold w; lra). assert (LX : length x0 = n) by apply X0.
  assert (CW0 : 0 <= INR (length l) * w) by (apply Rmult_le_pos; [apply pos_INR|exact w0]).
  assert (S0 : 0 <= S) by (unfold S; pose proof (Rabs_pos t0); assert (0 <= C * (INR (length l) * w)) by (apply Rmult_le_pos; assumption); lra).
  pose proof (wf_tabF b64 _ stages 2 (wf_tab co stages 2 WF)) as WFF. pose proof (sc_tabF b64 _ stages (proj1 binary64_rounds) (sc_tab co stages SC)) as SCF.
  pose proof (adaptive_pathN (N:=DNum) (rhs_ofD gD) c stages (rk_w s0)) as AP. rewrite Em, En in AP.
  assert (GD : good_rhs (N:=DNum) n (rhs_ofD gD (rk_w s0))) by (intros t x Lx; exists (gD t x); split; [reflexivity|apply SZD; exact Lx]).
  pose proof (AP (wfD A _ _ stages 2 TH WFF) SCD HX GD (erk_set (N:=DNum) no_events t0D x0D s0) lD s' RUN) as P.
  assert (RD : readyAN c stages (rk_w s0) (erk_set (N:=DNum) no_events t0D x0D s0)) by (split; [rewrite En; apply X0|]; split; [reflexivity|left; reflexivity]).
  specialize (P RD). cbn [erk_set rk_t rk_x] in P.
  assert (BND : forall l1 l2 s1, l = l1 ++ l2 -> pathN (N:=FNum b64) (tabF b64 (tabR co)) stages n ix (fun t x => Ret (g t x)) (t0, x0) l1 s1 -> Rabs (fst s1) <= S /\ bound n (snd s1) B).
  { intros l1 l2 s1 El P1. assert (F1 : Forall (fun h => 0 < h <= H) l1) by (rewrite El in FA; apply Forall_app in FA; apply FA). assert (F2' : Forall (fun h => 0 < h <= H) l2) by (rewrite El in FA; apply Forall_app in FA; apply FA).
    pose proof (total_nonneg H l1 F1) as N1. pose proof (total_nonneg H l2 F2') as N2. assert (TT : total l = total l1 + total l2) by (rewrite El; apply total_app).
    assert (LL : INR (length l1) * w <= INR (length l) * w) by (apply Rmult_le_compat_r; [exact w0|apply le_INR; rewrite El, app_length; lia]).
    destruct (HC b64 (/ 2 ^ 53) (/ 2 ^ 1075) phi g l1 x0 s1 d H binary64_rounds U0 E0 PH AC ltac:(fold w; lra) F1 HH ltac:(lra) LX Hd NR P1) as [R1 R2]. fold w in R1, R2. split.
    - assert (Z1 : C * (INR (length l1) * w) <= C * (INR (length l) * w)) by (apply Rmult_le_compat_l; lra).
      replace (fst s1) with ((fst s1 - (t0 + total l1)) + (t0 + total l1)) by ring. eapply Rle_trans; [apply Rabs_triang|]. pose proof (Rabs_triang t0 (total l1)) as TR. rewrite (Rabs_pos_eq (total l1)) in TR by lra. unfold S. lra.
    - apply bound_le with ((B - E) + C * (d + H ^ p + q2r delta + phi + INR (length l1) * w)).
      + assert (C * (d + H ^ p + q2r delta + phi + INR (length l1) * w) <= E) by (unfold E; apply Rmult_le_compat_l; lra). lra.
      + apply near_bound with (X (t0 + total l1)); [exact R2|]. apply XB. lra. }
  destruct (path_holds (e_co c) (tabF b64 (tabR co)) stages n 2 ix gD g H A B G S WFF SCF HX TH A0 B0 G0 S0 SB RB RS RH SG _ _ lD P l (t0, x0) F2 FA T0 X0 BND) as (s1 & Q1 & Q2 & Q3).
  destruct (HC b64 (/ 2 ^ 53) (/ 2 ^ 1075) phi g l x0 s1 d H binary64_rounds U0 E0 PH AC CW FA HH TL LX Hd NR Q1) as [R1 R2].
  exists (fst s1), (snd s1). split; [exact Q2|]. split; [exact Q3|]. split; [exact R1|exact R2].
Qed.
