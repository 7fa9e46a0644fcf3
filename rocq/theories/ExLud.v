(** ExLud.v - the theorems of PropLud.v at work. *)
From Coq Require Import List Arith Lia Bool ZArith QArith Qcanon Reals Lra.
From Verif Require Import Base LUSpec LUModel ConvSpec StepSpec FpSpec LufModel LufSpec LufFacts4 LudSpec LufFacts6 PropLuf ExLuf PropLud.
Import ListNotations.
Local Open Scope R_scope.

(** [[4,1],[1,3]] is dominated with margin 2/5: 1 + 2/5*5 < 4, 1 + 2/5*4 < 3. *)
Lemma exM_dominant rnd : dominant_by (2 / 5) 2 (mvalN (exM rnd)).
Proof.
  assert (A1 : Rabs 1 = 1) by apply Rabs_R1. assert (A3 : Rabs 3 = 3) by (apply Rabs_pos_eq; lra). assert (A4 : Rabs 4 = 4) by (apply Rabs_pos_eq; lra).
  intros [|[|r]] Hr; [| |lia]; unfold exM; cbn -[Rabs]; rewrite ?A1, ?A3, ?A4; lra.
Qed.
(** Rounding with relative error up to 1/100; the error of the solution is below 200 u times its size. *)
Example C84_error_case : forall rnd u, relative rnd u -> 0 <= u <= / 100 -> forall b, length b = 2%nat ->
  exists st st' x z0 z1, setMatrixN (exM rnd) = Ret st /\ solveN st b = Ret (st', x) /\ 4 * z0 + z1 = cmpR b 0 /\ z0 + 3 * z1 = cmpR b 1 /\
    forall X, Rabs (cmpR x 0) <= X -> Rabs (cmpR x 1) <= X -> Rabs (cmpR x 0 - z0) <= 200 * u * X /\ Rabs (cmpR x 1 - z1) <= 200 * u * X.
Proof.
  intros rnd u RE HU b Lb. assert (I2 : INR 2 = 2) by (simpl; ring).
  assert (LO : loss 2 u <= 2 / 5). { unfold loss. cbn [pow]. assert ((1 + 8 * u) * (1 + 8 * u) <= (1 + 8 / 100) * (1 + 8 / 100)) by (apply Rmult_le_compat; lra). lra. }
  destruct (C84_error rnd u (2 / 5) 2 (exM rnd) b RE ltac:(lra) ltac:(rewrite I2; lra) (exM_distinct rnd) (exM_acceptable rnd) (exM_covers rnd) ltac:(lra) LO (exM_dominant rnd) Lb) as (st & st' & x & z & E & SO & Lx & Z & _ & B).
  exists st, st', x, (z 0%nat), (z 1%nat). split; [exact E|]. split; [exact SO|].
  pose proof (Z 0%nat ltac:(lia)) as Z0. pose proof (Z 1%nat ltac:(lia)) as Z1. cbn in Z0, Z1. split; [lra|]. split; [lra|]. intros X X0 X1.
  assert (XP : 0 <= X) by (pose proof (Rabs_pos (cmpR x 0)); lra).
  assert (K : kap 2 u / (2 / 5) <= 200 * u).
  { unfold kap, gam. rewrite I2. assert (D : 2 * u / (1 - 2 * u) <= 21 / 10 * u).
    { apply Rmult_le_reg_r with (1 - 2 * u); [lra|]. unfold Rdiv. rewrite Rmult_assoc, Rinv_l, Rmult_1_r by lra. assert (0 <= u * (1 / 10 - 42 / 10 * u)) by (apply Rmult_le_pos; lra). lra. }
    assert (D0 : 0 <= 2 * u / (1 - 2 * u)) by (apply Rmult_le_pos; [lra|left; apply Rinv_0_lt_compat; lra]). set (d := 2 * u / (1 - 2 * u)) in *.
    assert (DD : d * d <= 21 / 10 * u * (21 / 1000)) by (apply Rmult_le_compat; lra). assert (DP : 0 <= d * d) by (apply Rmult_le_pos; lra).
    assert (P : 0 <= (1 + 8 * u) ^ 2 <= 12 / 10). { cbn [pow]. split; [apply Rmult_le_pos; lra|]. assert ((1 + 8 * u) * (1 + 8 * u) <= (1 + 8 / 100) * (1 + 8 / 100)) by (apply Rmult_le_compat; lra). lra. }
    assert (P2 : 2 * (1 + u) * (1 + 8 * u) ^ 2 <= 2 * (101 / 100) * (12 / 10)) by (apply Rmult_le_compat; lra). assert (P3 : 0 <= 2 * (1 + u) * (1 + 8 * u) ^ 2) by (apply Rmult_le_pos; lra).
    assert (Q : (3 * d + d * d) * (2 * (2 * (1 + u) * (1 + 8 * u) ^ 2)) <= (7 * u) * 5) by (apply Rmult_le_compat; lra). lra. }
  assert (BB : forall i, (i < 2)%nat -> Rabs (cmpR x i - z i) <= 200 * u * X).
  { intros i Hi. eapply Rle_trans; [apply (B X); [intros [|[|c]] Hc; [exact X0|exact X1|lia]|exact Hi]|]. apply Rmult_le_compat_r; assumption. }
  split; apply BB; lia.
Qed.
(** The margin is needed: an arithmetic with relative error 1/9 that returns 1 for everything between 9/10 and 1 makes the second pivot of [[1,19/20],[19/20,1]] zero. *)
Definition rnd1 (z : R) : R := if Rle_dec (9 / 10) z then if Rle_dec z 1 then 1 else z else z.
Lemma rnd1_relative : relative rnd1 (/ 9).
Proof.
  intros z. pose proof (Rabs_pos z). unfold rnd1. destruct (Rle_dec (9 / 10) z); [destruct (Rle_dec z 1)|]; try (rewrite Rminus_eq_0, Rabs_R0; lra).
  rewrite (Rabs_pos_eq z), Rabs_pos_eq by lra. lra.
Qed.
Definition ex1 (rnd : R -> R) : entriesN (FNum rnd) := [((0,0)%nat,1);((0,1)%nat,19/20);((1,0)%nat,19/20);((1,1)%nat,1)].
Lemma ex1_in rnd r c : storedN (ex1 rnd) r c <-> (r < 2 /\ c < 2)%nat.
Proof.
  split.
  - intros [v H]. simpl in H. repeat (destruct H as [H|H]; [inversion H; subst; lia|]). contradiction.
  - intros [Hr Hc]. destruct r as [|[|]]; [| |lia]; (destruct c as [|[|]]; [| |lia]); eexists; simpl; eauto 6.
Qed.
Lemma ex1_acceptable rnd : acceptableN (ex1 rnd) 2.
Proof. split; [intros r c H; apply ex1_in in H; exact H|]. intros i Hi. split; exists i; (split; [apply ex1_in; lia|lia]). Qed.
Lemma ex1_distinct rnd : distinct_keys (ex1 rnd).
Proof. unfold distinct_keys, ex1. simpl. repeat constructor; simpl; intuition discriminate. Qed.
Theorem C84_margin_refuted : ~ (forall rnd u n (e : entriesN (FNum rnd)), relative rnd u -> 0 <= u -> INR n * u < 1 -> distinct_keys e -> acceptableN e n -> dominant_by 0 n (mvalN e) ->
  exists st st' L U, setMatrixN e = Ret st /\ factorizeN st = Ret st' /\ factorsN st' e n L U /\ forall c, (c < n)%nat -> U c c <> 0).
Proof.
  intros H. set (e := ex1 rnd1).
  assert (D : dominant_by 0 2 (mvalN e)).
  { assert (A1 : Rabs 1 = 1) by apply Rabs_R1. assert (A2 : Rabs (19 / 20) = 19 / 20) by (apply Rabs_pos_eq; lra). intros [|[|r]] Hr; [| |lia]; unfold e, ex1; cbn -[Rabs]; rewrite ?A1, ?A2; lra. }
  destruct (H rnd1 (/ 9) 2%nat e rnd1_relative ltac:(lra) ltac:(simpl; lra) (ex1_distinct rnd1) (ex1_acceptable rnd1) D) as (st & st' & L & U & M & F & FA & PIV).
  destruct (LufFacts2.any_lu e 2 (ex1_distinct rnd1) (ex1_acceptable rnd1)) as [st0 [st0' [L0 [U0 [M0 [F0 [_ [FA0 [[DL DU] _]]]]]]]]].
  rewrite M in M0. injection M0 as <-. rewrite F in F0. injection F0 as <-.
  assert (Q : U 1%nat 1%nat = U0 1%nat 1%nat).
  { destruct FA as [_ [A2 _]], FA0 as [_ [B2 _]]. assert (S : sky e 1 1 = true) by reflexivity. specialize (A2 1%nat 1%nat ltac:(lia) S). specialize (B2 1%nat 1%nat ltac:(lia) S). rewrite A2 in B2. injection B2 as B2. exact B2. }
  apply (PIV 1%nat); [lia|]. rewrite Q.
  assert (R1 : rnd1 (19 / 20) = 1) by (unfold rnd1; destruct (Rle_dec (9 / 10) (19 / 20)); [destruct (Rle_dec (19 / 20) 1)|]; lra).
  assert (R0 : rnd1 0 = 0) by (unfold rnd1; destruct (Rle_dec (9 / 10) 0); [lra|reflexivity]).
  assert (U00 : U0 0%nat 0%nat = 1) by exact (DU 0%nat 0%nat ltac:(lia) eq_refl).
  assert (U01 : U0 0%nat 1%nat = 19 / 20) by exact (DU 0%nat 1%nat ltac:(lia) eq_refl).
  assert (L10 : L0 1%nat 0%nat = rnd1 (19 / 20 / U0 0%nat 0%nat)) by exact (DL 1%nat 0%nat ltac:(lia) eq_refl). rewrite U00 in L10. unfold Rdiv at 1 in L10. rewrite Rinv_1, Rmult_1_r, R1 in L10.
  assert (U11 : U0 1%nat 1%nat = rnd1 (1 - rnd1 (L0 1%nat 0%nat * U0 0%nat 1%nat))) by exact (DU 1%nat 1%nat ltac:(lia) eq_refl).
  rewrite U11, L10, U01, Rmult_1_l, R1, Rminus_eq_0. exact R0.
Qed.
Print Assumptions C84_margin_refuted.
