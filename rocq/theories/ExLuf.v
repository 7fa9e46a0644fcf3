(** ExLuf.v - the theorems of PropLuf.v at work. *)
From Coq Require Import List Arith Lia Bool ZArith QArith Qcanon Reals Lra.
From Flocq Require Import Core.
From Verif Require Import Base LUSpec LUModel ConvSpec StepSpec FpSpec LufModel LufSpec LufFacts2 LufFacts3 LufFacts4 PropLuf.
Import ListNotations.
Local Open Scope R_scope.

(** [[4,1],[1,3]] *)
Definition exM (rnd : R -> R) : entriesN (FNum rnd) := [((0,0)%nat,4);((0,1)%nat,1);((1,0)%nat,1);((1,1)%nat,3)].
Lemma exM_distinct rnd : distinct_keys (exM rnd).
Proof. unfold distinct_keys, exM. simpl. repeat constructor; simpl; intuition discriminate. Qed.
Lemma exM_in rnd r c : storedN (exM rnd) r c <-> (r < 2 /\ c < 2)%nat.
Proof.
  split.
  - intros [v H]. simpl in H. repeat (destruct H as [H|H]; [inversion H; subst; lia|]). contradiction.
  - intros [Hr Hc]. destruct r as [|[|]]; [| |lia]; (destruct c as [|[|]]; [| |lia]); eexists; simpl; eauto 6.
Qed.
Lemma exM_acceptable rnd : acceptableN (exM rnd) 2.
Proof.
  split; [intros r c H; apply exM_in in H; exact H|]. intros i Hi. split; exists i; (split; [apply exM_in; lia|lia]).
Qed.
Lemma exM_covers rnd : coversN (exM rnd) 2.
Proof. intros r c H _. exists c. split; [lia|]. apply exM_in. lia. Qed.
(** No pivot vanishes, whatever the rounding (relative error at most 1/100). *)
Example C84_case : forall rnd u, relative rnd u -> 0 <= u <= / 100 -> forall b, length b = 2%nat ->
  exists st st' x, setMatrixN (exM rnd) = Ret st /\ solveN st b = Ret (st', x) /\
    exists W0 W1, Rabs (4 * cmpR x 0 + cmpR x 1 - cmpR b 0) <= 7 * u * W0 /\ Rabs (cmpR x 0 + 3 * cmpR x 1 - cmpR b 1) <= 7 * u * W1 /\
      W0 = 4 * Rabs (cmpR x 0) + Rabs (cmpR x 1) /\ W1 <= 2 * Rabs (cmpR x 0) + 5 * Rabs (cmpR x 1).
Proof.
  intros rnd u RE HU b Lb. set (e := exM rnd). assert (INR 2 = 2) as I2 by (simpl; ring).
  destruct (any_lu e 2 (exM_distinct rnd) (exM_acceptable rnd)) as [st0 [st0' [L0 [U0 [M0 [F0 [_ [FA0 [[DL DU] _]]]]]]]]].
  destruct (C84_backward rnd u 2 e RE ltac:(lra) ltac:(rewrite I2; lra) (exM_distinct rnd) (exM_acceptable rnd)) as [st [st' [L [U [M [F [FA B]]]]]]].
  rewrite M in M0. injection M0 as <-. rewrite F in F0. injection F0 as <-.
  assert (same : L 1%nat 0%nat = L0 1%nat 0%nat /\ U 0%nat 0%nat = U0 0%nat 0%nat /\ U 0%nat 1%nat = U0 0%nat 1%nat /\ U 1%nat 1%nat = U0 1%nat 1%nat).
  { destruct FA as [A1 [A2 _]], FA0 as [B1 [B2 _]]. specialize (A1 1%nat 0%nat ltac:(lia) eq_refl). specialize (B1 1%nat 0%nat ltac:(lia) eq_refl). rewrite A1 in B1. injection B1 as B1.
    assert (Q : forall r c, (r <= c < 2)%nat -> U r c = U0 r c). { intros r c H. specialize (A2 r c H). specialize (B2 r c H). assert (S : sky e r c = true) by (apply sky_stored, exM_in; lia). rewrite (A2 S) in B2. specialize (B2 S). injection B2 as B2. exact B2. }
    repeat split; [exact B1|apply Q; lia|apply Q; lia|apply Q; lia]. }
  destruct same as [SL [S0 [S1 S2]]].
  assert (U00 : U 0%nat 0%nat = 4) by (rewrite S0; exact (DU 0%nat 0%nat ltac:(lia) eq_refl)).
  assert (U01 : U 0%nat 1%nat = 1) by (rewrite S1; exact (DU 0%nat 1%nat ltac:(lia) eq_refl)).
  assert (L10 : L 1%nat 0%nat = rnd (1 / 4)). { rewrite <- U00 at 1. rewrite SL, S0. exact (DL 1%nat 0%nat ltac:(lia) eq_refl). }
  assert (U11 : U 1%nat 1%nat = rnd (3 - rnd (L 1%nat 0%nat * 1))). { rewrite S2, SL, <- U01, S1. exact (DU 1%nat 1%nat ltac:(lia) eq_refl). }
  pose proof (RE (1 / 4)) as R1. rewrite <- L10 in R1. pose proof (RE (L 1%nat 0%nat * 1)) as R2. pose proof (RE (3 - rnd (L 1%nat 0%nat * 1))) as R3. rewrite <- U11 in R3.
  rewrite (Rabs_pos_eq (1 / 4)) in R1 by lra.
  assert (B1 : 24 / 100 <= L 1%nat 0%nat <= 26 / 100). { apply Rabs_le_inv in R1. assert (u * (1 / 4) <= / 100 * (1 / 4)) by (apply Rmult_le_compat_r; lra). lra. }
  rewrite Rmult_1_r in R2, R3. rewrite (Rabs_pos_eq (L _ _)) in R2 by lra.
  assert (B2 : 23 / 100 <= rnd (L 1%nat 0%nat) <= 27 / 100). { apply Rabs_le_inv in R2. assert (u * L 1%nat 0%nat <= / 100 * L 1%nat 0%nat) by (apply Rmult_le_compat_r; lra). lra. }
  rewrite (Rabs_pos_eq (3 - _)) in R3 by lra.
  assert (B3 : 27 / 10 <= U 1%nat 1%nat <= 28 / 10). { apply Rabs_le_inv in R3. assert (u * (3 - rnd (L 1%nat 0%nat)) <= / 100 * (3 - rnd (L 1%nat 0%nat))) by (apply Rmult_le_compat_r; lra). lra. }
  destruct B as [_ B]. { intros [|[|c]] Hc; [rewrite U00|lra|lia]. intros Z. lra. }
  destruct (B (exM_covers rnd) b Lb) as [x [SO [_ [Lx ER]]]].
  exists st, st', x. split; [exact M|]. split; [exact SO|].
  pose proof (ER 0%nat ltac:(lia)) as E0. pose proof (ER 1%nat ltac:(lia)) as E1. clear ER B.
  assert (G : 3 * gam 2 u + gam 2 u * gam 2 u <= 7 * u).
  { unfold gam. rewrite I2. assert (D : 2 * u / (1 - 2 * u) <= 21 / 10 * u). { apply Rmult_le_reg_r with (1 - 2 * u); [lra|]. unfold Rdiv. rewrite Rmult_assoc, Rinv_l, Rmult_1_r by lra.
      assert (0 <= u * (1 / 10 - 42 / 10 * u)) by (apply Rmult_le_pos; lra). lra. }
    assert (D0 : 0 <= 2 * u / (1 - 2 * u)) by (apply Rmult_le_pos; [lra|left; apply Rinv_0_lt_compat; lra]).
    set (d := 2 * u / (1 - 2 * u)) in *. assert (d * d <= 21 / 10 * u * (21 / 1000)) by (apply Rmult_le_compat; lra). lra. }
  cbv [rsum lowR uppR Nat.ltb Nat.leb Nat.eqb] in E0, E1. cbn in E0, E1. rewrite U00, U01, ?Rabs_R0, ?Rabs_R1 in E0. rewrite U00, U01, ?Rabs_R0, ?Rabs_R1 in E1.
  rewrite (Rabs_pos_eq 4) in E0, E1 by lra. rewrite (Rabs_pos_eq (L _ _)) in E1 by lra. rewrite (Rabs_pos_eq (U _ _)) in E0, E1 by lra.
  pose proof (Rabs_pos (cmpR x 0)). pose proof (Rabs_pos (cmpR x 1)).
  eexists. eexists. split; [|split; [|split; [reflexivity|]]].
  - eapply Rle_trans; [|apply Rmult_le_compat_r; [lra|exact G]]. match type of E0 with Rabs ?a <= _ => match goal with |- Rabs ?b <= _ => replace b with a by ring end end. eapply Rle_trans; [exact E0|]. right. ring.
  - eapply Rle_trans; [|apply Rmult_le_compat_r; [|exact G]]. match type of E1 with Rabs ?a <= _ => match goal with |- Rabs ?b <= _ => replace b with a by ring end end. exact E1.
    assert (0 <= L 1%nat 0%nat * (4 * Rabs (cmpR x 0))) by (apply Rmult_le_pos; lra). assert (0 <= L 1%nat 0%nat * Rabs (cmpR x 1)) by (apply Rmult_le_pos; lra). assert (0 <= U 1%nat 1%nat * Rabs (cmpR x 1)) by (apply Rmult_le_pos; lra). lra.
  - assert (L 1%nat 0%nat * Rabs (cmpR x 0) <= 26/100 * Rabs (cmpR x 0)) by (apply Rmult_le_compat_r; lra). assert (L 1%nat 0%nat * Rabs (cmpR x 1) <= 26/100 * Rabs (cmpR x 1)) by (apply Rmult_le_compat_r; lra). assert (U 1%nat 1%nat * Rabs (cmpR x 1) <= 28/10 * Rabs (cmpR x 1)) by (apply Rmult_le_compat_r; lra). lra.
Qed.

Definition idR (z : R) : R := z.
Lemma id_relative : relative idR 0.
Proof. intros z. unfold idR. rewrite Rminus_eq_0, Rabs_R0. lra. Qed.
(** [[0,1],[1,0]]: a pivot is zero, and even without rounding errors the factors do not multiply to the matrix, whatever the result of the division by zero. *)
Definition exZ : entriesN (FNum idR) := [((0,0)%nat,0);((0,1)%nat,1);((1,0)%nat,1);((1,1)%nat,0)].
Example C84_zero_pivot_refuted : relative idR 0 /\ distinct_keys exZ /\ acceptableN exZ 2 /\
  exists st st' L U, setMatrixN exZ = Ret st /\ factorizeN st = Ret st' /\ factorsN st' exZ 2 L U /\
    ~ (Rabs (rsum 2 (fun k => lowR L 1 k * uppR U k 0) - mvalN exZ 1 0) <= gam 2 0 * rsum 2 (fun k => Rabs (lowR L 1 k) * Rabs (uppR U k 0))).
Proof.
  assert (D : distinct_keys exZ) by (unfold distinct_keys, exZ; simpl; repeat constructor; simpl; intuition discriminate).
  assert (A : acceptableN exZ 2).
  { split; [intros r c [v H]; simpl in H; repeat (destruct H as [H|H]; [inversion H; subst; lia|]); contradiction|]. intros [|[|i]] Hi; [| |lia]; split.
    - exists 0%nat. split; [eexists; simpl; eauto|lia]. - exists 0%nat. split; [eexists; simpl; eauto|lia]. - exists 1%nat. split; [eexists; simpl; eauto 6|lia]. - exists 1%nat. split; [eexists; simpl; eauto 6|lia]. }
  split; [exact id_relative|]. split; [exact D|]. split; [exact A|].
  destruct (any_lu exZ 2 D A) as [st [st' [L [U [M [F [_ [FA [[DL DU] _]]]]]]]]]. exists st, st', L, U. split; [exact M|]. split; [exact F|]. split; [exact FA|].
  assert (U00 : U 0%nat 0%nat = 0) by exact (DU 0%nat 0%nat ltac:(lia) eq_refl).
  cbv [rsum lowR uppR Nat.ltb Nat.leb Nat.eqb]. cbn. rewrite U00. unfold gam. intros H. replace (0 + _ * 0 + 1 * 0 - 1) with (- (1)) in H by ring. rewrite Rabs_Ropp, Rabs_R1 in H. simpl in H. unfold Rdiv in H. rewrite Rmult_0_r, !Rmult_0_l in H. lra.
Qed.
(** [[1,.,1],[1,1,.],[.,.,1]]: the second row has no stored element at or right of the third column, where the decomposition puts one; the solution is wrong even without rounding errors. *)
Definition exU : entriesN (FNum idR) := [((0,0)%nat,1);((0,2)%nat,1);((1,0)%nat,1);((1,1)%nat,1);((2,2)%nat,1)].
Example C84_uncovered_refuted : relative idR 0 /\ distinct_keys exU /\ acceptableN exU 3 /\
  exists st st' L U x, setMatrixN exU = Ret st /\ solveN st [0; 0; 1] = Ret (st', x) /\ factorsN st' exU 3 L U /\ (forall c, (c < 3)%nat -> U c c <> 0) /\
    ~ (Rabs (rsum 3 (fun c => mvalN exU 1 c * cmpR x c) - 0) <= (3 * gam 3 0 + gam 3 0 * gam 3 0) * rsum 3 (fun k => Rabs (lowR L 1 k) * rsum 3 (fun c => Rabs (uppR U k c) * Rabs (cmpR x c)))).
Proof.
  assert (D : distinct_keys exU) by (unfold distinct_keys, exU; simpl; repeat constructor; simpl; intuition discriminate).
  assert (A : acceptableN exU 3).
  { split; [intros r c [v H]; simpl in H; repeat (destruct H as [H|H]; [inversion H; subst; lia|]); contradiction|].
    intros i Hi. assert (S : storedN exU i i) by (destruct i as [|[|[|]]]; [| | |lia]; eexists; simpl; eauto 8). split; exists i; (split; [exact S|lia]). }
  split; [exact id_relative|]. split; [exact D|]. split; [exact A|].
  destruct (any_lu exU 3 D A) as [st [st' [L [U [M [F [_ [FA [[DL DU] S]]]]]]]]]. destruct (S [0; 0; 1] ltac:(simpl; lia)) as [x [y [S1 [_ [_ [_ [Y X]]]]]]].
  exists st, st', L, U, x. split; [exact M|]. split; [exact S1|]. split; [exact FA|].
  assert (U00 : U 0%nat 0%nat = 1) by exact (DU 0%nat 0%nat ltac:(lia) eq_refl). assert (U02 : U 0%nat 2%nat = 1) by exact (DU 0%nat 2%nat ltac:(lia) eq_refl).
  assert (U11 : U 1%nat 1%nat = 1) by exact (DU 1%nat 1%nat ltac:(lia) eq_refl). assert (U22 : U 2%nat 2%nat = 1) by exact (DU 2%nat 2%nat ltac:(lia) eq_refl).
  assert (Y0 : y 0%nat = 0) by exact (Y 0%nat ltac:(lia)). assert (Y1 : y 1%nat = 0 - L 1%nat 0%nat * y 0%nat) by exact (Y 1%nat ltac:(lia)). rewrite Y0 in Y1. assert (Y2 : y 2%nat = 1) by exact (Y 2%nat ltac:(lia)).
  assert (X2 : cmpR x 2 = y 2%nat / U 2%nat 2%nat) by exact (X 2%nat ltac:(lia)). assert (X1 : cmpR x 1 = y 1%nat / U 1%nat 1%nat) by exact (X 1%nat ltac:(lia)).
  assert (X0 : cmpR x 0 = (y 0%nat - U 0%nat 2%nat * cmpR x 2) / U 0%nat 0%nat) by exact (X 0%nat ltac:(lia)).
  rewrite U22, Y2 in X2. rewrite U11, Y1 in X1. rewrite X2, U00, U02, Y0 in X0. split.
  - intros [|[|[|c]]] Hc; [rewrite U00; lra|rewrite U11; lra|rewrite U22; lra|lia].
  - assert (G : gam 3 0 = 0) by (unfold gam; unfold Rdiv; rewrite Rmult_0_r, Rmult_0_l; reflexivity). rewrite G. replace ((3 * 0 + 0 * 0) * _) with 0 by ring.
    assert (E : rsum 3 (fun c => mvalN exU 1 c * cmpR x c) = cmpR x 0 + cmpR x 1). { cbn [rsum]. change (mvalN exU 1 0) with 1. change (mvalN exU 1 1) with 1. change (mvalN exU 1 2) with 0. ring. }
    rewrite E, X0, X1. replace ((0 - 1 * (1 / 1)) / 1 + (0 - L 1%nat 0%nat * 0) / 1 - 0) with (- (1)) by field. rewrite Rabs_Ropp, Rabs_R1. lra.
Qed.
