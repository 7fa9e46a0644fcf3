(** XrkFacts7.v - convergence of the extrapolation solver over the reals. *)
From Coq Require Import List Arith Bool ZArith QArith Qcanon Lia Reals Lra.
From Verif Require Import Base BaseFacts VecModel VOps NewtModel RkModel RkSpec RkFacts StepModel StepSpec ExtModel ExtSpec ImpModel ConvSpec ConvFacts ConvFacts2 ConvFacts5 HighSpec HighFacts4 HighFacts5 ImcSpec ImcFacts3 XrkSpec XrkFacts6.
Import ListNotations.
Local Open Scope R_scope.

Lemma toR_nth l s : nth s (map toR l) [] = toR (nth s l []).
Proof. change (@nil R) with (toR []) at 1. apply map_nth. Qed.
Lemma step_real co stages n f g h t x t' x' : computes_rhs n f g -> textbook_step co stages n f h (t, x) (t', x') ->
  tstep (tabR co) stages n 0 (fun t x => Ret (g t x)) (q2r h) (q2r t, toR x) (q2r t', toR x').
Proof.
  intros CR [TT (ev & k & (LE & LK & ST) & (LX & RES))]. cbn [fst snd] in *. split; [cbn [fst]; rewrite TT; apply q2r_plus|]. cbn [fst snd].
  exists (map (fun p => (q2r (fst p), toR (snd p))) ev), (map toR k). split.
  - split; [rewrite map_length; exact LE|]. split; [rewrite map_length; exact LK|]. intros s Hs. destruct (ST s Hs) as (arg & E1 & E2 & LA & A). exists (toR arg).
    assert (TQ : q2r t + q2r h * CR_ (tabR co) s = q2r (t + h * C_ co s)%Qc) by (rewrite CR_tab, q2r_plus, q2r_mult; reflexivity). rewrite TQ. split; [rewrite nth_error_map, E1; reflexivity|]. split.
    + destruct (CR (t + h * C_ co s)%Qc arg LA) as (y & EY & _ & GY). rewrite EY in E2. injection E2 as E2. rewrite toR_nth. rewrite <- E2, GY. reflexivity.
    + split; [rewrite toR_length; exact LA|]. intros j Hj. rewrite !toR_cmp, A by exact Hj. rewrite q2r_plus, q2r_mult, q2r_sum. f_equal. f_equal. apply rsum_ext. intros i _. rewrite AR_tab, toR_nth, toR_cmp, q2r_mult. reflexivity.
  - split; [rewrite toR_length; exact LX|]. intros j Hj. rewrite !toR_cmp, RES by exact Hj. rewrite q2r_plus, q2r_mult, q2r_sum. f_equal. f_equal. apply rsum_ext. intros i _. rewrite BR_tab, toR_nth, toR_cmp, q2r_mult. reflexivity.
Qed.
Section Run.
Context {S Q : Type} (rs : refsolver QcNum S) (sq : stepseq Q) (c : xcfg QcNum) (n : nat) (f : Qc -> list Qc -> Outcome (list Qc)) (g : R -> list R -> list R) (co : coeffs QcNum) (stages : nat).
Hypothesis CR : computes_rhs n f g.
Hypothesis BY : steps_by rs sq c n f co stages.
Lemma run_path s l s' : x_run rs sq c s l s' -> length (x_x s) = n -> path (tabR co) stages n 0 (fun t x => Ret (g t x)) (q2r (x_t s), toR (x_x s)) (map q2r l) (q2r (x_t s'), toR (x_x s')).
Proof.
  intros H. induction H as [s|s fuel s1 posts a l s2 E _ I]; intros LX; [constructor|]. destruct (BY fuel s s1 posts a LX E) as (h & ST). cbn [map]. assert (EH : h = (x_t s1 - x_t s)%Qc) by (pose proof (proj1 ST) as T1; cbn [fst] in T1; rewrite T1; ring).
  pose proof ST as (_ & _ & _ & _ & (L1 & _)). cbn [snd] in L1. econstructor; [|apply I; exact L1]. rewrite <- EH. apply (step_real co stages n f g); assumption.
Qed.
End Run.
Lemma good_computes n f g : computes_rhs n f g -> good_rhs (N:=QcNum) n f.
Proof. intros CR t x LX. destruct (CR t x LX) as (y & E & L & _). exists y. auto. Qed.
Lemma run_order g n L X t0 T p co stages : (0 < p)%nat -> sized n g -> 0 <= L -> lipschitz n L g -> 0 <= T -> solves n g X t0 (t0 + T) -> smooth_along n p g X t0 (t0 + T) ->
  order_conditions co stages 0 p -> row_sums co stages ->
  exists C, 0 <= C /\ forall (S Q : Type) (rs : refsolver QcNum S) (sq : stepseq Q) (c : xcfg QcNum) f (s s' : xst QcNum S Q) l H d, computes_rhs n f g -> steps_by rs sq c n f co stages ->
    x_run rs sq c s l s' -> length (x_x s) = n -> q2r (x_t s) = t0 -> 0 <= d -> near n (toR (x_x s)) (X t0) d ->
    Forall (fun h => 0 < q2r h <= H) l -> 0 <= H -> total (map q2r l) <= T ->
    q2r (x_t s') = t0 + total (map q2r l) /\ near n (toR (x_x s')) (X (q2r (x_t s'))) (C * (d + H ^ p)).
Proof.
  intros Hp SZ HL LIP HT SO SM OC RS. destruct (entries_exist co) as (A & A0 & EN). assert (AR0 : 0 <= q2r A) by (apply q2r_le in A0; rewrite q2r_0 in A0; exact A0).
  destruct (path_order n p stages 0 g X t0 T L (q2r A) Hp SZ HT SO HL LIP AR0 SM) as [C [C0 HC]]. exists C. split; [exact C0|].
  intros S Q rs sq c f s s' l H d CR BY RUN LX ET D0 NR FA H0 TL. pose proof (run_path rs sq c n f g co stages CR BY s l s' RUN LX) as P. rewrite ET in P.
  assert (FA' : Forall (fun h => 0 < h <= H) (map q2r l)) by (clear - FA; induction FA; cbn [map]; constructor; assumption).
  assert (D1 : (0 <= 1)%Qc) by discriminate.
  destruct (HC (tabR co) (q2r 0%Qc) (map q2r l) (toR (x_x s)) (q2r (x_t s'), toR (x_x s')) d H (table_upto co stages 0 p 0%Qc A Hp A0 D1 EN (order_exact co stages 0 p OC RS)) P FA' TL) as [E1 N];
    [rewrite toR_length; exact LX|exact D0|exact NR|exact H0|]. cbn [fst snd] in E1, N. rewrite q2r_0, Rplus_0_r in N. split; assumption.
Qed.
Theorem rk_convergence : forall g n L X t0 T co stages (ns : list nat) (m : nat),
  wf_table co stages 1 -> co_last co = (-1)%Z -> order_conditions co stages 0 1 -> row_sums co stages -> (1 <= m)%nat -> increasing ns m ->
  sized n g -> 0 <= L -> lipschitz n L g -> 0 <= T -> solves n g X t0 (t0 + T) -> smooth_along n m g X t0 (t0 + T) ->
  exists C, 0 <= C /\ forall (W Q : Type) f (sq : stepseq Q) (c : xcfg QcNum) (s s' : xst QcNum (Qc * rkst QcNum W) Q) l H d,
    computes_rhs n f g -> delivers sq ns -> xc_stages c = m -> xc_sym c = false -> (xc_nocheck c = false -> (2 <= m)%nat) ->
    x_run (rk_ref (N:=QcNum) no_events (fun _ : W => f) co n) sq c s l s' -> length (x_x s) = n -> q2r (x_t s) = t0 -> 0 <= d -> near n (toR (x_x s)) (X t0) d ->
    Forall (fun h => 0 < q2r h <= H) l -> 0 <= H -> total (map q2r l) <= T ->
    q2r (x_t s') = t0 + total (map q2r l) /\ near n (toR (x_x s')) (X (q2r (x_t s'))) (C * (d + H ^ m)).
Proof.
  intros g n L X t0 T co stages ns m WF LAST ONE ROWS M1 INC SZ HL LIP HT SO SM. destruct (rk_extrapolated co stages ns m WF LAST ONE ROWS M1 INC) as (B & bs & _ & OC & RS & BY).
  destruct (run_order g n L X t0 T m B bs M1 SZ HL LIP HT SO SM OC RS) as (C & C0 & HC). exists C. split; [exact C0|]. intros W Q f sq c s s' l H d CR DEL SMc SYM M2. apply (HC _ _ _ sq c f s s' l H d CR).
  apply BY; try assumption. exact (good_computes n f g CR).
Qed.
Theorem gragg_convergence : forall g n L X t0 T (smooth sym : bool) (ns : list nat) (m p : nat), (1 <= m)%nat -> increasing ns m -> p = gragg_order sym m ->
  sized n g -> 0 <= L -> lipschitz n L g -> 0 <= T -> solves n g X t0 (t0 + T) -> smooth_along n p g X t0 (t0 + T) ->
  exists C, 0 <= C /\ forall (W Q : Type) f (sq : stepseq Q) (c : xcfg QcNum) (s s' : xst QcNum (gst QcNum W) Q) l H d,
    computes_rhs n f g -> delivers sq ns -> xc_stages c = m -> xc_sym c = sym -> (xc_nocheck c = false -> (2 <= m)%nat) ->
    x_run (gragg_ref (N:=QcNum) no_events (fun _ : W => f) smooth (1 / qn 2)%Qc (qn 2)) sq c s l s' -> length (x_x s) = n -> q2r (x_t s) = t0 -> 0 <= d -> near n (toR (x_x s)) (X t0) d ->
    Forall (fun h => 0 < q2r h <= H) l -> 0 <= H -> total (map q2r l) <= T ->
    q2r (x_t s') = t0 + total (map q2r l) /\ near n (toR (x_x s')) (X (q2r (x_t s'))) (C * (d + H ^ p)).
Proof.
  intros g n L X t0 T smooth sym ns m p M1 INC EP SZ HL LIP HT SO SM. destruct (gragg_extrapolated smooth sym ns m M1 INC) as (B & bs & _ & OC & RS & BY). rewrite <- EP in OC. assert (P1 : (0 < p)%nat) by (rewrite EP; unfold gragg_order; destruct sym; [lia|]; assert (1 <= (m + 1) / 2)%nat by (apply Nat.div_le_lower_bound; lia); lia).
  destruct (run_order g n L X t0 T p B bs P1 SZ HL LIP HT SO SM OC RS) as (C & C0 & HC). exists C. split; [exact C0|]. intros W Q f sq c s s' l H d CR DEL SMc SYM M2. apply (HC _ _ _ sq c f s s' l H d CR).
  apply BY; try assumption. exact (good_computes n f g CR).
Qed.
