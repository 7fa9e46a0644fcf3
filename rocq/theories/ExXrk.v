(** ExXrk.v - concrete cases and refutations for C79. *)
From Coq Require Import List Arith Bool ZArith QArith Qcanon Lia Reals Lra Qreals.
From Verif Require Import Base BaseFacts VecModel VOps NewtModel RkModel RkSpec RkFacts RkFacts5 RkFacts6 StepModel StepSpec ExtModel ExtSpec ExtFacts2 ImpModel ConvSpec ConvFacts ConvFacts5 HighSpec HighFacts3 HighFacts5 ImcSpec
  XrkModel XrkSpec XrkFacts6 XrkFacts7 XrkFacts8 ExConv.
Import ListNotations.
Local Open Scope nat_scope.

(** * x' = x with the Gragg solver, expansion in squares, two stages, harmonic sequence: one accepted step of size 1/2 *)
Definition same (w : unit) (t : Qc) (x : list Qc) : Outcome (list Qc) := Ret x.
Definition xcf (n stages : nat) (sym : bool) : xcfg QcNum :=
  mkXcfg (N:=QcNum) n (qc 1 2) (qc 1 1000) sym true stages (fun d => Ret (linf (N:=QcNum) d)) (fun h _ => (h, true, false)).
Definition gfresh : gst QcNum unit := mkG (N:=QcNum) 0%Qc [] [] [] false 0%Qc tt.
Definition rfresh : Qc * rkst QcNum unit := (0%Qc, mkRk (N:=QcNum) 0%Qc [] None out_empty tt).
Definition xat {S : Type} (s : S) (x : list Qc) : xst QcNum S Z := mkX (N:=QcNum) 0%Qc x None [] s 0%Z.
Definition xval {S : Type} (r : xst QcNum S Z * list (postarg QcNum) * option (attempt QcNum)) : Q * list Q * bool :=
  let '(s, _, o) := r in (this (x_t s), map this (x_x s), match o with Some (AAccepted _) => true | _ => false end).
Definition gragg_half (smooth : bool) (f : Qc -> list Qc -> Outcome (list Qc)) := gragg_ref (N:=QcNum) no_events (fun _ : unit => f) smooth (1 / qn 2)%Qc (qn 2).
(** order 4: the result agrees with the exponential series up to h^4 (1 + 1/2 + 1/8 + 1/48 + 1/384) *)
Example C79_gragg_step : xval (x_step (N:=QcNum) (gragg_half false (same tt)) harmonic no_events (xcf 1 2 true) 1 (xat gfresh [1%Qc])) = ((1 # 2)%Q, [(211 # 128)%Q], true).
Proof. vm_compute. reflexivity. Qed.
Lemma nodes_12 : increasing [1; 2] 2.
Proof. split; [reflexivity|]. split; [cbn; lia|]. intros i j I J. destruct i as [|[|i]]; destruct j as [|[|j]]; cbn; lia. Qed.
Lemma harmonic_12 : delivers harmonic [1; 2].
Proof. intros q. destruct (harmonic_take q 2 ltac:(reflexivity)) as (q' & E). exists (map seq_harmonic (seq 0 2)), q'. split; [exact E|reflexivity]. Qed.
Lemma same_good n : good_rhs (N:=QcNum) n (same tt). Proof. intros t x L. exists x. split; [reflexivity|exact L]. Qed.
(** The conditions of C79_rk_table hold for Euler and RK4, and those of its conclusion for two stages of the harmonic sequence. *)
Example C79_conditions : (wf_table tab_euler 1 1 /\ co_last tab_euler = (-1)%Z /\ order_conditions tab_euler 1 0 1 /\ row_sums tab_euler 1) /\
  (wf_table tab_rk4 4 1 /\ co_last tab_rk4 = (-1)%Z /\ order_conditions tab_rk4 4 0 1 /\ row_sums tab_rk4 4) /\
  increasing [1; 2] 2 /\ delivers harmonic [1; 2] /\ good_rhs (N:=QcNum) 1 (same tt) /\ xc_stages (xcf 1 2 true) = 2 /\ xc_nocheck (xcf 1 2 true) = true.
Proof.
  split; [split; [exact wf_euler|]; split; [reflexivity|]; split; [exact ord_euler|exact rows_euler]|].
  split; [split; [exact wf_rk4|]; split; [reflexivity|]; split; [|exact rows_rk4]; intros t Ht; apply ord_rk4; lia|].
  split; [exact nodes_12|]. split; [exact harmonic_12|]. split; [apply same_good|]. split; reflexivity.
Qed.

(** * Where the reported order is more than the solver has *)
(** a chain of n variables, each the slope of the one before; the last is constant *)
Definition chain (i j : nat) : Qc := if j =? S i then 1%Qc else 0%Qc.
Definition unit_last (n : nat) : list Qc := repeat 0%Qc (n - 1) ++ [1%Qc].
Lemma chain_pow n : forall m x i, length x = n -> i < n -> mpow n chain m x i = cmp_ x (i + m).
Proof.
  induction m as [|m I]; intros x i L Hi; [rewrite Nat.add_0_r; reflexivity|]. cbn [mpow]. destruct (Nat.lt_ge_cases (S i) n) as [H|H].
  - rewrite (qsum_single n (S i)); [|exact H|].
    + unfold chain. rewrite Nat.eqb_refl, I by assumption. rewrite Qcmult_1_l. f_equal. lia.
    + intros j Hj NE. unfold chain. apply Nat.eqb_neq in NE. rewrite NE. ring.
  - rewrite qsum_zero; [unfold cmp_; rewrite nth_overflow by lia; reflexivity|]. intros j Hj. unfold chain. assert (NE : j <> S i) by lia. apply Nat.eqb_neq in NE. rewrite NE. ring.
Qed.
Lemma last_at n i : 0 < n -> cmp_ (unit_last n) i = if i =? n - 1 then 1%Qc else 0%Qc.
Proof.
  intros P. unfold cmp_, unit_last. destruct (i =? n - 1) eqn:E.
  - apply Nat.eqb_eq in E. rewrite app_nth2; rewrite repeat_length; [|lia]. replace (i - (n - 1)) with 0 by lia. reflexivity.
  - apply Nat.eqb_neq in E. destruct (Nat.lt_ge_cases i (n - 1)) as [H|H].
    + rewrite app_nth1 by (rewrite repeat_length; exact H). apply nth_repeat.
    + apply nth_overflow. rewrite app_length, repeat_length. cbn. lia.
Qed.
(** one step of a method of order p on a chain of p + 1 variables: the first variable becomes h^p / p! *)
Lemma chain_step co stages p h t t' x' : 0 < p -> order_conditions co stages 0 p -> textbook_step co stages (S p) (linear_rhs (S p) chain) h (t, unit_last (S p)) (t', x') ->
  t' = (t + h)%Qc /\ (cmp_ x' 0 = (qpow h p * (1 / qn (fact p)))%Qc \/ cmp_ x' 0 = 0%Qc).
Proof.
  intros P OC [TT (ev & k & TS & TR)]. cbn [fst snd] in *. split; [exact TT|]. pose proof (lin_result co stages (S p) chain (unit_last (S p)) t h ev k 0 x' TS TR 0 ltac:(lia)) as E.
  assert (L : length (unit_last (S p)) = S p) by (unfold unit_last; rewrite app_length, repeat_length; cbn; lia).
  assert (V : forall m, mpow (S p) chain (S m) (unit_last (S p)) 0 = if m =? p - 1 then 1%Qc else 0%Qc).
  { intros m. rewrite chain_pow by (exact L || lia). rewrite last_at by lia. replace (S p - 1) with p by lia. cbn [Nat.add]. destruct p as [|p]; [lia|]. cbn [Nat.eqb]. replace (S p - 1) with p by lia. reflexivity. }
  rewrite last_at in E by lia. replace (0 =? S p - 1) with false in E by (symmetry; apply Nat.eqb_neq; lia). destruct (Nat.lt_ge_cases (p - 1) stages) as [H|H].
  - left. rewrite E. rewrite (qsum_single stages (p - 1)); [|exact H|].
    + rewrite V, Nat.eqb_refl. rewrite OC by (rewrite tall_order; lia). rewrite tall_density. replace (S (p - 1)) with p by lia. ring.
    + intros i Hi NE. rewrite V. apply Nat.eqb_neq in NE. rewrite NE. ring.
  - right. rewrite E, qsum_zero; [ring|]. intros i Hi. rewrite V. replace (i =? p - 1) with false by (symmetry; apply Nat.eqb_neq; lia). ring.
Qed.
(** the first variable after the step is neither of the two values possible with order p *)
Definition off {S : Type} (r : xst QcNum S Z * list (postarg QcNum) * option (attempt QcNum)) (p : nat) : bool :=
  match r with
  | (s, _, Some (AAccepted _)) => let v := cmp_ (x_x s) 0 in
      if Qc_eq_dec v 0 then false else if Qc_eq_dec v (qpow (x_t s) p * (1 / qn (fact p))) then false else true
  | _ => false
  end.
Lemma by_refuted {S : Type} (rs : refsolver QcNum S) c p (s0 : S) big bs : 0 < p -> order_conditions big bs 0 p ->
  steps_by rs harmonic c (Datatypes.S p) (linear_rhs (Datatypes.S p) chain) big bs ->
  off (x_step (N:=QcNum) rs harmonic no_events c 1 (xat s0 (unit_last (Datatypes.S p)))) p = true -> False.
Proof.
  intros P OC BY O. destruct (x_step (N:=QcNum) rs harmonic no_events c 1 (xat s0 (unit_last (Datatypes.S p)))) as [[s' posts] o] eqn:E. unfold off in O. destruct o as [o|]; [|discriminate O].
  destruct o; try discriminate O. destruct (BY 1 (xat s0 (unit_last (Datatypes.S p))) s' posts a) as (h & TS); [|exact E|].
  - cbn [x_x xat]. unfold unit_last. rewrite app_length, repeat_length. cbn. lia.
  - cbn [x_t x_x xat] in TS. destruct (chain_step big bs p h 0%Qc (x_t s') (x_x s') P OC TS) as (TT & K). assert (h = x_t s') by (rewrite TT; ring). subst h.
    destruct (Qc_eq_dec _ 0) as [|N0]; [discriminate O|]. destruct (Qc_eq_dec _ _) as [|N1]; [discriminate O|]. destruct K as [K|K]; [exact (N1 K)|exact (N0 K)].
Qed.
Lemma chain_good n : good_rhs (N:=QcNum) n (linear_rhs n chain).
Proof. intros t x L. eexists. split; [reflexivity|]. rewrite map_length, seq_length. reflexivity. Qed.
(** RK4 with two stages reports order 5; it does not have it: extrapolation removes the terms of order h, h^2, ... of the error expansion, and that of
    RK4 begins with h^4. *)
Theorem C79_rk4_reported_refuted : ~ (exists big bigstages, order_conditions big bigstages 0 (Z.to_nat (x_order 4 2 false)) /\
  forall f n c, good_rhs (N:=QcNum) n f -> xc_stages c = 2 -> xc_sym c = false -> xc_nocheck c = true ->
  steps_by (rk_ref (N:=QcNum) no_events (fun _ : unit => f) tab_rk4 n) harmonic c n f big bigstages).
Proof.
  intros (big & bs & OC & BY). change (Z.to_nat (x_order 4 2 false)) with 5 in OC.
  apply (by_refuted _ _ 5 rfresh big bs ltac:(lia) OC (BY _ 6 (xcf 6 2 false) (chain_good 6) eq_refl eq_refl eq_refl)). vm_compute. reflexivity.
Qed.
Print Assumptions C79_rk4_reported_refuted.
(** Euler with the expansion in squares declared (which it does not have) reports order 3 and has not even order 2. *)
Theorem C79_euler_squares_refuted : ~ (exists big bigstages, order_conditions big bigstages 0 2 /\
  forall f n c, good_rhs (N:=QcNum) n f -> xc_stages c = 2 -> xc_sym c = true -> xc_nocheck c = true ->
  steps_by (rk_ref (N:=QcNum) no_events (fun _ : unit => f) tab_euler n) harmonic c n f big bigstages).
Proof.
  intros (big & bs & OC & BY).
  apply (by_refuted _ _ 2 rfresh big bs ltac:(lia) OC (BY _ 3 (xcf 3 2 true) (chain_good 3) eq_refl eq_refl eq_refl)). vm_compute. reflexivity.
Qed.
Print Assumptions C79_euler_squares_refuted.
Example C79_euler_squares_reported : x_order 1 2 true = 3%Z. Proof. reflexivity. Qed.
(** Gragg without it, two stages, reports order 3; the order is 2. *)
Theorem C79_gragg_reported_refuted : ~ (exists big bigstages, order_conditions big bigstages 0 (Z.to_nat (x_order 2 2 false)) /\
  forall f n c, good_rhs (N:=QcNum) n f -> xc_stages c = 2 -> xc_sym c = false -> xc_nocheck c = true ->
  steps_by (gragg_half false f) harmonic c n f big bigstages).
Proof.
  intros (big & bs & OC & BY). change (Z.to_nat (x_order 2 2 false)) with 3 in OC.
  apply (by_refuted _ _ 3 gfresh big bs ltac:(lia) OC (BY _ 4 (xcf 4 2 false) (chain_good 4) eq_refl eq_refl eq_refl)). vm_compute. reflexivity.
Qed.
Print Assumptions C79_gragg_reported_refuted.

(** * Convergence: x' = x, the solution exp t, order 4 with two stages of the Gragg solver *)
Local Open Scope R_scope.
Definition idD (t : R) (j : nat) (idx : list nat) : R := match idx with [] => exp t | [S k] => if Nat.eqb k j then 1 else 0 | _ => 0 end.
Lemma form_two N c u v us : (forall a b l, c (a :: b :: l) = 0) -> form N c (u :: v :: us) = 0.
Proof.
  intros H. cbn [form]. assert (Z : forall a b, form N (fun l => c (a :: b :: l)) us = 0) by (intros a b; rewrite (form_ext N (length us) us _ (fun _ => 0)) by auto; apply form_zero).
  assert (Z0 : forall (g : nat -> R) k, (forall i, g i = 0) -> rsum k g = 0) by (intros g k G; induction k as [|k I]; cbn; [|rewrite I, G]; lra).
  apply Z0. intros a. rewrite Z0; [lra|]. intros b. rewrite Z. lra.
Qed.
Lemma id_smooth T p : (2 <= p)%nat -> 0 <= T -> smooth_along 1 p idf expX 0 (0 + T).
Proof.
  intros P HT. exists idD, 1, (exp T + 1). pose proof (exp_pos T). split; [lra|]. split; [lra|]. intros t Ht. split.
  - intros j idx Hj _. assert (ET : exp t <= exp T) by (destruct (Rle_lt_or_eq_dec t T ltac:(lra)) as [K|K]; [left; apply exp_increasing; exact K|rewrite K; lra]). pose proof (exp_pos t).
    destruct idx as [|[|k] [|? ?]]; cbn [idD]; try (rewrite Rabs_R0; lra); [rewrite Rabs_right; lra|]. destruct (Nat.eqb k j); [rewrite Rabs_R1|rewrite Rabs_R0]; lra.
  - intros s y d LY Hs N Hd j Hj. assert (j = 0%nat) by lia. subst j. assert (D0 : 0 <= d) by (pose proof (Rabs_pos (s - t)); lra).
    assert (E : rsum p (fun m => form 2 (idD t 0) (repeat (shift t (expX t) s y) m) / INR (fact m)) = cmpR y 0).
    { destruct p as [|[|p]]; try lia. clear P. induction p as [|p I].
      - cbn. unfold expX, cmpR. cbn. field.
      - cbn [rsum] in I |- *. rewrite I. cbn [repeat]. rewrite form_two by (intros [|[|a]] b l; reflexivity). unfold Rdiv. ring. }
    cbn in E |- *. unfold idf. rewrite E. rewrite Rminus_eq_0, Rabs_R0. apply Rmult_le_pos; [lra|apply pow_le; exact D0].
Qed.
Lemma same_computes : computes_rhs 1 (same tt) idf.
Proof. intros t x L. exists x. split; [reflexivity|]. split; [exact L|reflexivity]. Qed.
Example C79_exponential : exists C, 0 <= C /\ forall s s' l H, x_run (gragg_half false (same tt)) harmonic (xcf 1 2 true) s l s' -> x_t s = 0%Qc -> x_x s = [1%Qc] ->
  Forall (fun h => 0 < q2r h <= H) l -> 0 <= H -> total (map q2r l) <= 1 -> Rabs (cmpR (toR (x_x s')) 0 - exp (q2r (x_t s'))) <= C * H ^ 4.
Proof.
  destruct (gragg_convergence idf 1 1 expX 0 1 false true [1; 2]%nat 2 4 ltac:(lia) nodes_12 eq_refl (fun t x K => K) ltac:(lra) (id_lip 1) ltac:(lra) (exp_solves 0 (0 + 1)) (id_smooth 1 4 ltac:(lia) ltac:(lra))) as (C & C0 & HC).
  exists C. split; [exact C0|]. intros s s' l H RUN ET EX FA H0 TOT.
  assert (N0 : near 1 (toR (x_x s)) (expX 0) 0). { rewrite EX. intros [|j] Hj; [|lia]. unfold cmpR, expX. cbn. rewrite exp_0. unfold q2r. cbn. rewrite RMicromega.Q2R_1, Rminus_eq_0, Rabs_R0. lra. }
  destruct (HC unit Z (same tt) harmonic (xcf 1 2 true) s s' l H 0 same_computes harmonic_12 eq_refl eq_refl (fun _ => le_n 2)) as (_ & N); try assumption; try lra.
  - rewrite EX. reflexivity.
  - rewrite ET. apply q2r_0.
  - specialize (N 0%nat ltac:(lia)). rewrite Rplus_0_l in N. exact N.
Qed.
Print Assumptions C79_exponential.
(** such runs exist *)
Example C79_run : exists s', x_run (gragg_half false (same tt)) harmonic (xcf 1 2 true) (xat gfresh [1%Qc]) [qc 1 2] s'.
Proof.
  destruct (x_step (N:=QcNum) (gragg_half false (same tt)) harmonic no_events (xcf 1 2 true) 1 (xat gfresh [1%Qc])) as [[s1 posts] o] eqn:E.
  pose proof C79_gragg_step as X. rewrite E in X. unfold xval in X. destruct o as [[| | | |a]|]; try discriminate X. exists s1.
  assert (T1 : (x_t s1 - x_t (xat gfresh [1%Qc]))%Qc = qc 1 2). { cbn [x_t xat]. injection X as X _. apply Qc_is_canon. cbn. rewrite X. reflexivity. }
  rewrite <- T1. eapply xrun_step; [exact E|constructor].
Qed.
