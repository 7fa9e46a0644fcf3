(** ExLin.v - a concrete case for C75_linear. *)
From Coq Require Import List Arith Lia ZArith QArith Qcanon Reals Lra.
From Verif Require Import Base BaseFacts VecModel VOps RkModel RkSpec RkFacts StepModel StepSpec ConvSpec ConvFacts HighSpec HighFacts5 HighFacts7 ExHigh FpSpec IeeeFacts4 PropHigh.
Import ListNotations.
Local Open Scope R_scope.

(** The oscillator x' = v, v' = -x with the solution (sin t, cos t). *)
Definition turn (i j : nat) : R := match i, j with 0%nat, 1%nat => 1 | 1%nat, 0%nat => - (1) | _, _ => 0 end.
Definition circle (t : R) : list R := [sin t; cos t].
Lemma turn_small i j : Rabs (turn i j) <= 1.
Proof. unfold turn. destruct i as [|[|i]], j as [|[|j]]; rewrite ?Rabs_R0, ?Rabs_Ropp, ?Rabs_R1; lra. Qed.
Lemma circle_solves t0 t1 : solves 2 (linearR 2 turn) circle t0 t1.
Proof.
  intros t _. split; [reflexivity|]. intros j Hj. rewrite linear_nth by exact Hj. destruct j as [|[|j]]; [| |lia]; unfold circle, cmpR, turn; cbn [rsum nth].
  - replace (0 + 0 * sin t + 1 * cos t) with (cos t) by ring. apply derivable_pt_lim_sin.
  - replace (0 + - (1) * sin t + 0 * cos t) with (- sin t) by ring. apply derivable_pt_lim_cos.
Qed.
Example C75_linear_case : smooth_along 2 4 (linearR 2 turn) circle 0 (0 + 1).
Proof. apply C75_linear with 1; [lia|lra|intros; apply turn_small|lra|apply circle_solves]. Qed.
(** The Runge-Kutta solver computes sine and cosine with fourth order. *)
Example C75_sine : exists C, 0 <= C /\ forall h count, 0 < h -> INR count * h <= 1 ->
  exists s' posts, rk_steps (N:=RNum) no_events (rhs_of (W:=unit) (linearR 2 turn)) (tabR tab_rk4) 2 h count (rk_set (N:=RNum) no_events 0 [0; 1] (mkRk (N:=RNum) 0 [] None out_empty tt)) = Ret (s', posts) /\
    Rabs (cmpR (rk_x s') 0 - sin (INR count * h)) <= C * h ^ 4 /\ Rabs (cmpR (rk_x s') 1 - cos (INR count * h)) <= C * h ^ 4.
Proof.
  destruct C75_conditions as [H1 [H2 [H3 [H4 _]]]].
  assert (SZ : sized 2 (linearR 2 turn)) by (intros t x _; reflexivity).
  destruct (order_exactly (linearR 2 turn) 2 (INR 2 * 1) circle 0 1 4 tab_rk4 4 ltac:(lia) H1 H2 H3 H4 SZ ltac:(simpl; lra) (linear_lip 2 turn 1 ltac:(lra) (fun i j _ _ => turn_small i j)) ltac:(lra) (circle_solves _ _) C75_linear_case) as [C [C0 HC]].
  exists C. split; [exact C0|]. intros h count Hh HC1.
  assert (N0 : near 2 [0; 1] (circle 0) 0). { intros [|[|j]] Hj; [| |lia]; unfold circle, cmpR; cbn [nth]; rewrite ?sin_0, ?cos_0, Rminus_eq_0, Rabs_R0; lra. }
  destruct (HC unit (mkRk (N:=RNum) 0 [] None out_empty tt) h count [0; 1] 0 Hh HC1 eq_refl ltac:(lra) N0) as [s' [posts [E [ET N]]]].
  exists s', posts. split; [exact E|]. rewrite ET, !Rplus_0_l in N. split; [exact (N 0%nat ltac:(lia))|exact (N 1%nat ltac:(lia))].
Qed.
Print Assumptions C75_sine.
