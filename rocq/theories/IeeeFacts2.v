(** IeeeFacts2.v - runs in doubles are the runs in rounded arithmetic; the error bound for doubles; linear right-hand sides in doubles. *)
From Coq Require Import List Arith Bool ZArith Lia Reals Lra.
From Coq Require Import QArith Qcanon.
From Flocq Require Import Core IEEE754.BinarySingleNaN.
From Verif Require Import Base BaseFacts VecModel VOps RkModel RkSpec RkFacts StepModel StepSpec ConvSpec ConvFacts ConvFacts3 ConvFacts4 ConvFacts5 HighSpec HighFacts5 FpSpec FpFacts FpFacts2 FpFacts4 FpFacts5 FpFacts6 IfpFacts3 IfpFacts5 IeeeSpec IeeeFacts.
Import ListNotations.
Local Open Scope R_scope.
Notation b64 := binary64.

Lemma wfD A coD (co : coeffs (FNum b64)) stages nx : table_holds A coD co -> wf_table co stages nx -> wf_table coD stages nx.
Proof.
  intros ((ka & Ta) & (kb & Tb) & (kc & Tc) & _) (W1 & LA & LB & LC). destruct Ta as (A1 & A2 & _). destruct Tb as (B1 & B2 & _). destruct Tc as (C1 & C2 & _).
  change (nT (FNum b64)) with R in *. change (nT DNum) with double in *. split; [exact W1|]. split; [|split]; change (nT (FNum b64)) with R in *; change (nT DNum) with double in *; lia.
Qed.
Section Run.
Context {W W' : Type} (coD : coeffs DNum) (co : coeffs (FNum b64)) (stages n : nat) (gD : double -> list double -> list double) (g : R -> list R -> list R) (hD : double) (h A B G S : R).
Hypothesis WF : wf_table co stages 1.
Hypothesis SCD : shortcut_ok coD stages.
Hypothesis SC : shortcut_ok co stages.
Hypothesis TH : table_holds A coD co.
Hypothesis HH : holds hD h.
Hypothesis A0 : 0 <= A.
Hypothesis B0 : 0 <= B.
Hypothesis G0 : 0 <= G.
Hypothesis S0 : 0 <= S.
Notation P := (term_size A G h).
Notation Bd := (state_size stages A G h B).
Notation Sd := (time_size A h S).
Hypothesis SB : INR stages <= 4096.
Hypothesis RB : Bd <= 2 ^ 1000.
Hypothesis RS : Sd <= 2 ^ 1000.
Hypothesis RH : rhs_holds n Sd Bd G gD g.
Hypothesis SZD : sizedD n gD.
Hypothesis SZ : sized n g.
Notation runD := (rk_steps (N:=DNum) no_events (rhs_ofD (W:=W) gD) coD n hD).
Notation runF := (rk_steps (N:=FNum b64) no_events (rhs_ofF (W:=W') b64 g) co n h).
Lemma goodD w : good_rhs (N:=DNum) n (rhs_ofD (W:=W) gD w).
Proof. intros t x L. exists (gD t x). split; [reflexivity|]. apply SZD. exact L. Qed.
Lemma goodF w : good_rhs (N:=FNum b64) n (rhs_ofF (W:=W') b64 g w).
Proof. intros t x L. exists (g t x). split; [reflexivity|]. apply SZ. exact L. Qed.
Lemma runs count : forall (sD : rkst DNum W) (s : rkst (FNum b64) W'), readyN (N:=DNum) stages n hD sD -> readyN (N:=FNum b64) stages n h s ->
  holds (rk_t sD) (rk_t s) -> holdsV n (rk_x sD) (rk_x s) ->
  (forall m s' posts, (m <= count)%nat -> runF m s = Ret (s', posts) -> Rabs (rk_t s' : R) <= S /\ bound n (rk_x s') B) ->
  exists sD' pD s' p, runD count sD = Ret (sD', pD) /\ runF count s = Ret (s', p) /\ holds (rk_t sD') (rk_t s') /\ holdsV n (rk_x sD') (rk_x s').
Proof.
  pose proof (wfD A coD co stages 1 TH WF) as WD. pose proof big4 as BG.
  induction count as [|c I]; intros sD s RD RF HT HX BD.
  - exists sD, [], s, []. split; [reflexivity|]. split; [reflexivity|]. split; assumption.
  - destruct (rk_step_okN (N:=DNum) (rhs_ofD gD) coD stages n hD WD SCD sD (goodD _) RD) as (s1D & E1 & R1 & _ & T1).
    destruct (rk_step_okN (N:=FNum b64) (rhs_ofF b64 g) co stages n h WF SC s (goodF _) RF) as (s1 & E2 & R2 & _ & T2).
    destruct (BD 0%nat s [] ltac:(lia) eq_refl) as [BT BX].
    destruct T1 as (TT1 & evD & kD & SD & RED). destruct T2 as (TT2 & ev & k & SF & REF). cbn [fst snd] in *.
    assert (HT1 : holds (rk_t s1D) (rk_t s1)).
    { rewrite TT1, TT2. apply d_add; [exact HT|exact HH|]. eapply Rle_trans; [apply Rabs_triang|]. unfold time_size in RS. pose proof (pow_R1_Rle 2 1000 ltac:(lra)). assert (0 <= Rabs h * A) by (apply Rmult_le_pos; [apply Rabs_pos|exact A0]). rewrite <- BG. pose proof (Rabs_pos h). lra. }
    assert (HX1 : holdsV n (rk_x s1D) (rk_x s1)).
    { exact (result_holds coD co stages n 1 gD g hD h A B G S WF TH HH A0 B0 G0 S0 SB RB RS RH _ _ _ _ HX BX HT BT evD kD ev k SD SF 0 _ _ (le_n 1) RED REF). }
    destruct (I s1D s1 R1 R2 HT1 HX1) as (sD' & pD & s' & p & Q1 & Q2 & Q3 & Q4).
    { intros m s' p Hm E. apply (BD (Datatypes.S m) s' (mkPost (N:=FNum b64) h true false false (n0 (FNum b64)) None 0%Z :: p)); [lia|]. cbn [rk_steps]. rewrite E2. cbn [obind]. rewrite E. reflexivity. }
    exists sD', (mkPost (N:=DNum) hD true false false (n0 DNum) None 0%Z :: pD), s', (mkPost (N:=FNum b64) h true false false (n0 (FNum b64)) None 0%Z :: p).
    split; [cbn [rk_steps]; rewrite E1; cbn [obind]; rewrite Q1; reflexivity|]. split; [cbn [rk_steps]; rewrite E2; cbn [obind]; rewrite Q2; reflexivity|]. split; assumption.
Qed.
Theorem same_run t0D t0 x0D x0 (s0D : rkst DNum W) (s0 : rkst (FNum b64) W') count : holds t0D t0 -> holdsV n x0D x0 ->
  (forall m s' posts, (m <= count)%nat -> runF m (rk_set (N:=FNum b64) no_events t0 x0 s0) = Ret (s', posts) -> Rabs (rk_t s' : R) <= S /\ bound n (rk_x s') B) ->
  exists sD' pD s' p, runD count (rk_set (N:=DNum) no_events t0D x0D s0D) = Ret (sD', pD) /\ runF count (rk_set (N:=FNum b64) no_events t0 x0 s0) = Ret (s', p) /\
    holds (rk_t sD') (rk_t s') /\ holdsV n (rk_x sD') (rk_x s').
Proof.
  intros HT HX BD. apply runs; [| |exact HT|exact HX|exact BD].
  - split; [apply HX|left; reflexivity].
  - split; [apply HX|left; reflexivity].
Qed.
End Run.
(** The error bound of C83_order for doubles. *)
Lemma order_double f n L X t0 T p co stages delta : (0 < p)%nat -> wf_table co stages 1 -> shortcut_ok co stages -> order_upto co stages 0 p delta -> (delta <= 1)%Qc ->
  sized n f -> 0 <= L -> lipschitz n L f -> 0 <= T -> solves n f X t0 (t0 + T) -> smooth_along n p f X t0 (t0 + T) -> INR stages <= 4096 ->
  exists C, 0 <= C /\ forall (W : Type) coD gD g (s0 : rkst DNum W) hD h count t0D x0D x0 d phi A B G,
  table_holds A coD (tabF b64 (tabR co)) -> shortcut_ok coD stages -> 0 <= A -> 0 <= G -> 0 <= phi <= 1 -> sizedD n gD -> sized n g -> accurate n phi f g ->
  0 < h -> holds hD h -> holds t0D t0 -> holdsV n x0D x0 -> INR count * h <= T -> INR count * (/ 2 ^ 53 + / 2 ^ 1075) <= 1 -> 0 <= d <= 1 -> near n x0 (X t0) d ->
  let E := C * (d + h ^ p + q2r delta + phi + INR count * (/ 2 ^ 53 + / 2 ^ 1075)) in let S := Rabs t0 + T + C * (INR count * (/ 2 ^ 53 + / 2 ^ 1075)) in
  (forall t, t0 <= t <= t0 + T -> bound n (X t) (B - E)) -> 0 <= B -> state_size stages A G h B <= 2 ^ 1000 -> time_size A h S <= 2 ^ 1000 ->
  rhs_holds n (time_size A h S) (state_size stages A G h B) G gD g ->
  exists s' posts t x, rk_steps (N:=DNum) no_events (rhs_ofD gD) coD n hD count (rk_set (N:=DNum) no_events t0D x0D s0) = Ret (s', posts) /\
    holds (rk_t s') t /\ holdsV n (rk_x s') x /\ Rabs (t - (t0 + INR count * h)) <= C * (INR count * (/ 2 ^ 53 + / 2 ^ 1075)) /\ near n x (X (t0 + INR count * h)) E.
Proof.
  intros Hp WF SC OR DL SZf L0 LP T0 SV SM SB.
  destruct (order_rounded f n L X t0 T p co stages delta Hp WF SC OR DL SZf L0 LP T0 SV SM) as (C & C0 & HC). exists C. split; [exact C0|].
  intros W coD gD g s0 hD h count t0D x0D x0 d phi A B G TH SCD A0 G0 PH SZD SZ AC Hh HH HT HX CT CW HD NX E S XB B0 RB RS RH.
  set (w := / 2 ^ 53 + / 2 ^ 1075) in *.
  assert (U0 : 0 <= / 2 ^ 53) by (left; apply Rinv_0_lt_compat, pow_lt; lra). assert (E0 : 0 <= / 2 ^ 1075) by (left; apply Rinv_0_lt_compat, pow_lt; lra).
  assert (w0 : 0 <= w) by (unfold w; lra).
  set (s0F := mkRk (N:=FNum b64) (W:=unit) 0 [] None out_empty tt).
  assert (LX : length x0 = n) by apply HX.
  assert (S0 : 0 <= S) by (unfold S; pose proof (Rabs_pos t0); assert (0 <= C * (INR count * w)) by (apply Rmult_le_pos; [exact C0|apply Rmult_le_pos; [apply pos_INR|exact w0]]); lra).
  assert (MM : forall m, (m <= count)%nat -> INR m * h <= INR count * h /\ INR m * w <= INR count * w /\ 0 <= INR m * h /\ 0 <= INR m * w).
  { intros m Hm. apply le_INR in Hm. pose proof (pos_INR m). repeat split; try (apply Rmult_le_compat_r; lra); apply Rmult_le_pos; lra. }
  assert (RUN : forall m, (m <= count)%nat -> exists s' posts, rk_steps (N:=FNum b64) no_events (rhs_ofF b64 g) (tabF b64 (tabR co)) n h m (rk_set (N:=FNum b64) no_events t0 x0 s0F) = Ret (s', posts) /\
     Rabs (rk_t s' - (t0 + INR m * h)) <= C * (INR m * w) /\ near n (rk_x s') (X (t0 + INR m * h)) (C * (d + h ^ p + q2r delta + phi + INR m * w))).
  { intros m Hm. destruct (MM m Hm) as (M1 & M2 & M3 & M4). refine (HC unit b64 (/ 2 ^ 53) (/ 2 ^ 1075) phi g s0F h m x0 d binary64_rounds U0 E0 PH SZ AC Hh _ _ LX HD NX); [lra|fold w; lra]. }
  assert (BD : forall m s' posts, (m <= count)%nat -> rk_steps (N:=FNum b64) no_events (rhs_ofF b64 g) (tabF b64 (tabR co)) n h m (rk_set (N:=FNum b64) no_events t0 x0 s0F) = Ret (s', posts) ->
    Rabs (rk_t s' : R) <= S /\ bound n (rk_x s') B).
  { intros m s' posts Hm Q. destruct (RUN m Hm) as (s1 & p1 & Q1 & TT & NN). rewrite Q in Q1. injection Q1 as <- <-. destruct (MM m Hm) as (M1 & M2 & M3 & M4). split.
    - assert (Z1 : C * (INR m * w) <= C * (INR count * w)) by (apply Rmult_le_compat_l; lra).
      replace (rk_t s' : R) with ((rk_t s' - (t0 + INR m * h)) + (t0 + INR m * h)) by ring. eapply Rle_trans; [apply Rabs_triang|]. pose proof (Rabs_triang t0 (INR m * h)) as TR. rewrite (Rabs_pos_eq (INR m * h)) in TR by lra. unfold S. lra.
    - apply bound_le with ((B - E) + C * (d + h ^ p + q2r delta + phi + INR m * w)).
      + assert (C * (d + h ^ p + q2r delta + phi + INR m * w) <= E) by (unfold E; apply Rmult_le_compat_l; lra). lra.
      + apply near_bound with (X (t0 + INR m * h)); [exact NN|]. apply XB. lra. }
  destruct (same_run (W:=W) (W':=unit) coD (tabF b64 (tabR co)) stages n gD g hD h A B G S (wf_tabF b64 _ stages 1 (wf_tab co stages 1 WF)) SCD (sc_tabF b64 _ stages (proj1 binary64_rounds) (sc_tab co stages SC)) TH HH A0 B0 G0 S0 SB RB RS RH SZD SZ
     t0D t0 x0D x0 s0 s0F count HT HX BD) as (sD' & pD & s' & p' & Q1 & Q2 & Q3 & Q4).
  destruct (RUN count (le_n _)) as (s1 & p1 & R1 & R2 & R3). rewrite Q2 in R1. injection R1 as <- <-.
  exists sD', pD, (rk_t s'), (rk_x s'). split; [exact Q1|]. split; [exact Q3|]. split; [exact Q4|]. split; [exact R2|exact R3].
Qed.
