(** DomFacts.v - dominant and positive definite matrices have nonsingular leading submatrices. *)
From Coq Require Import List Arith Lia Bool ZArith QArith Qcanon.
From Verif Require Import Base BaseFacts LUSpec LUModel LUFacts4 LUFacts5 LUFacts6 OrdFacts SpFacts4 SMap SpModel RkModel StepModel RosModel RosSpec RosFacts4 RosFacts5 DomSpec.
Local Open Scope Qc_scope.

Lemma mul_le_l a b c : 0 <= c -> a <= b -> c * a <= c * b.
Proof. intros C H. rewrite (Qcmult_comm c a), (Qcmult_comm c b). apply Qcmult_le_compat_r; assumption. Qed.
Lemma off_trunc n k r (f : nat -> Qc) : (k <= n)%nat -> (forall c, 0 <= f c) -> qsum k (fun c => if Nat.eqb c r then 0 else f c) <= qsum n (fun c => if Nat.eqb c r then 0 else f c).
Proof.
  intros K F. rewrite (qsum_split n k) by exact K. assert (0 <= qsum (n - k) (fun i => if Nat.eqb (k + i) r then 0 else f (k + i)%nat)) by (apply qsum_nonneg; intros i _; destruct (Nat.eqb _ _); [apply Qcle_refl|apply F]). qclra.
Qed.
Lemma row_leading n k A : (k <= n)%nat -> row_dominant n A -> row_dominant k A.
Proof. intros K D r Hr. eapply Qcle_lt_trans; [|apply D; lia]. apply off_trunc; [exact K|]. intros; apply Qcabs_nonneg. Qed.
Lemma col_leading n k A : (k <= n)%nat -> column_dominant n A -> column_dominant k A.
Proof. intros K D r Hr. eapply Qcle_lt_trans; [|apply D; lia]. apply (off_trunc n k r (fun c => Qcabs (A c r))); [exact K|]. intros; apply Qcabs_nonneg. Qed.
Lemma max_index k (x : nat -> Qc) : (0 < k)%nat -> exists i, (i < k)%nat /\ forall j, (j < k)%nat -> Qcabs (x j) <= Qcabs (x i).
Proof.
  induction k as [|k I]; [lia|]. intros _. destruct (Nat.eq_dec k 0) as [->|Z].
  - exists 0%nat. split; [lia|]. intros j Hj. replace j with 0%nat by lia. apply Qcle_refl.
  - destruct (I ltac:(lia)) as (i & Hi & M). destruct (Qclt_le_dec (Qcabs (x i)) (Qcabs (x k))) as [L|L].
    + exists k. split; [lia|]. intros j Hj. destruct (Nat.eq_dec j k) as [->|]; [apply Qcle_refl|]. eapply Qcle_trans; [apply M; lia|]. apply Qclt_le_weak. exact L.
    + exists i. split; [lia|]. intros j Hj. destruct (Nat.eq_dec j k) as [->|]; [exact L|apply M; lia].
Qed.
(** From row r of A x = 0: the diagonal term is at most the others. *)
Lemma row_zero k (A : nat -> nat -> Qc) x r : (r < k)%nat -> qsum k (fun c => A r c * x c) = 0 -> Qcabs (A r r) * Qcabs (x r) <= qsum k (fun c => if Nat.eqb c r then 0 else Qcabs (A r c) * Qcabs (x c)).
Proof.
  intros Hr E. rewrite (qsum_remove k r) in E by exact Hr. rewrite <- Qcabs_mult. assert (A r r * x r = - qsum k (fun c => if Nat.eqb c r then 0 else A r c * x c)) as -> by (match type of E with ?a + ?q = 0 => replace a with ((a + q) - q) by ring; rewrite E; ring end).
  rewrite Qcabs_opp. eapply Qcle_trans; [apply qsum_abs|]. apply qsum_le. intros i _. destruct (Nat.eqb i r); [rewrite (Qcabs_pos 0) by apply Qcle_refl; apply Qcle_refl|]. rewrite Qcabs_mult. apply Qcle_refl.
Qed.
Lemma row_nonsingular n A : row_dominant n A -> leading_nonsingular n A.
Proof.
  intros D k K x E c Hc. pose proof (row_leading n k A K D) as Dk. destruct (max_index k x ltac:(lia)) as (i & Hi & M).
  assert (Z : Qcabs (x i) = 0).
  { destruct (Qclt_le_dec 0 (Qcabs (x i))) as [P|P]; [|apply Qcle_antisym; [exact P|apply Qcabs_nonneg]]. exfalso.
    pose proof (row_zero k A x i Hi (E i Hi)) as R. assert (R2 : qsum k (fun c => if Nat.eqb c i then 0 else Qcabs (A i c) * Qcabs (x c)) <= qsum k (fun c => if Nat.eqb c i then 0 else Qcabs (A i c)) * Qcabs (x i)).
    { rewrite <- qsum_scale_r. apply qsum_le. intros j Hj. destruct (Nat.eqb j i); [rewrite Qcmult_0_l; apply Qcle_refl|]. apply mul_le_l; [apply Qcabs_nonneg|apply M; exact Hj]. }
    pose proof (Qcmult_lt_compat_r _ _ (Qcabs (x i)) P (Dk i Hi)) as R3. apply (Qclt_not_le _ _ R3). eapply Qcle_trans; [exact R|exact R2]. }
  apply Qcabs_zero_iff. apply Qcle_antisym; [rewrite <- Z; apply M; exact Hc|apply Qcabs_nonneg].
Qed.
Lemma qsum_lt n f g k : (forall i, (i < n)%nat -> f i <= g i) -> (k < n)%nat -> f k < g k -> qsum n f < qsum n g.
Proof.
  induction n as [|n I]; [lia|]. intros H Hk L. cbn [qsum]. destruct (Nat.eq_dec k n) as [->|Z].
  - assert (qsum n f <= qsum n g) by (apply qsum_le; intros; apply H; lia). qclra.
  - assert (qsum n f < qsum n g) by (apply I; [intros; apply H; lia|lia|exact L]). pose proof (H n ltac:(lia)). qclra.
Qed.
Lemma col_nonsingular n A : column_dominant n A -> leading_nonsingular n A.
Proof.
  intros D k K x E c Hc. pose proof (col_leading n k A K D) as Dk. destruct (Qc_eq_dec (x c) 0) as [Z|Z]; [exact Z|]. exfalso.
  assert (P : 0 < Qcabs (x c)). { destruct (Qclt_le_dec 0 (Qcabs (x c))) as [Q|Q]; [exact Q|]. exfalso. apply Z, Qcabs_zero_iff, Qcle_antisym; [exact Q|apply Qcabs_nonneg]. }
  assert (S1 : qsum k (fun r => Qcabs (A r r) * Qcabs (x r)) <= qsum k (fun r => qsum k (fun c => if Nat.eqb c r then 0 else Qcabs (A r c) * Qcabs (x c)))) by (apply qsum_le; intros r Hr; apply row_zero; [exact Hr|apply E; exact Hr]).
  rewrite qsum_swap in S1.
  assert (S2 : qsum k (fun c => qsum k (fun r => if Nat.eqb c r then 0 else Qcabs (A r c) * Qcabs (x c))) = qsum k (fun c => qsum k (fun r => if Nat.eqb r c then 0 else Qcabs (A r c)) * Qcabs (x c))).
  { apply qsum_ext. intros j Hj. rewrite <- qsum_scale_r. apply qsum_ext. intros r Hr. rewrite (Nat.eqb_sym r j). destruct (Nat.eqb j r); ring. }
  rewrite S2 in S1. apply (Qcle_not_lt _ _ S1). apply qsum_lt with c; [|exact Hc|].
  - intros j Hj. apply Qcmult_le_compat_r; [apply Qclt_le_weak, Dk; exact Hj|apply Qcabs_nonneg].
  - apply Qcmult_lt_compat_r; [exact P|apply Dk; exact Hc].
Qed.
Lemma definite_nonsingular n A : positive_definite n A -> leading_nonsingular n A.
Proof.
  intros D k K x E c Hc. destruct (Qc_eq_dec (x c) 0) as [Z|Z]; [exact Z|]. exfalso.
  set (y := fun i => if Nat.ltb i k then x i else 0).
  assert (Y : forall i, (i < k)%nat -> y i = x i) by (intros i Hi; unfold y; rewrite (proj2 (Nat.ltb_lt i k) Hi); reflexivity).
  assert (Y0 : forall i, (k <= i)%nat -> y i = 0) by (intros i Hi; unfold y; rewrite (proj2 (Nat.ltb_ge i k) Hi); reflexivity).
  assert (P : 0 < form n A y) by (apply D; exists c; split; [lia|rewrite Y by exact Hc; exact Z]).
  assert (F : form n A y = 0).
  { unfold form. apply qsum_zero. intros r Hr. destruct (le_lt_dec k r) as [L|L]; [rewrite Y0 by exact L; ring|].
    rewrite (qsum_trunc n k) by (try exact K; intros i Hi; rewrite Y0 by lia; ring). rewrite (qsum_ext k _ (fun c => A r c * x c)) by (intros i Hi; rewrite Y by exact Hi; reflexivity). rewrite E by exact L. ring. }
  rewrite F in P. exact (Qclt_not_eq _ _ P eq_refl).
Qed.
Lemma classes_solve e n st b : distinct_keys e -> acceptable e n -> setMatrix e = Ret st -> row_dominant n (mval e) \/ column_dominant n (mval e) \/ positive_definite n (mval e) ->
  stencil_covers e n -> length b = n -> exists st' x, solve st b = Ret (st', x) /\ length x = n /\ solves n (mval e) (vfun x) (vfun b) /\ (forall y, solves n (mval e) y (vfun b) -> forall i, (i < n)%nat -> y i = vfun x i).
Proof.
  intros DK AC SM CL SC LB. assert (LN : leading_nonsingular n (mval e)) by (destruct CL as [H|[H|H]]; [apply row_nonsingular|apply col_nonsingular|apply definite_nonsingular]; exact H).
  destruct (lu_solve_stencil e n st b DK AC SM LN (or_introl SC) LB) as (st' & x & E & LX & SO). exists st', x. split; [exact E|]. split; [exact LX|]. split; [exact SO|].
  intros y SY i Hi. assert (Z : y i - vfun x i = 0).
  { apply (LN n (le_n n) (fun i => y i - vfun x i)); [|exact Hi]. intros r Hr. rewrite (qsum_ext n _ (fun c => mval e r c * y c - mval e r c * vfun x c)) by (intros; ring). rewrite qsum_sub, SY, SO by exact Hr. ring. }
  replace (y i) with ((y i - vfun x i) + vfun x i) by ring. rewrite Z. ring.
Qed.

(** The matrix of the Rosenbrock solvers. *)
Lemma small_step m hd J1 J2 : (forall i, (i < m)%nat -> qsum m (fun j => Qcabs (hd * J1 i j + hd * hd * J2 i j)) < 1) -> row_dominant m (wmat hd J1 J2).
Proof.
  intros H r Hr. specialize (H r Hr). rewrite (qsum_remove m r) in H by exact Hr.
  rewrite (qsum_ext m _ (fun c => if Nat.eqb c r then 0 else Qcabs (hd * J1 r c + hd * hd * J2 r c))).
  2:{ intros c _. destruct (Nat.eqb c r) eqn:E; [reflexivity|]. unfold wmat, delta. rewrite Nat.eqb_sym, E. rewrite <- Qcabs_opp. f_equal. ring. }
  unfold wmat, delta. rewrite Nat.eqb_refl. set (a := hd * J1 r r + hd * hd * J2 r r) in *. replace (1 - hd * J1 r r - hd * hd * J2 r r) with (1 - a) by (unfold a; ring).
  assert (T : 1 <= Qcabs (1 - a) + Qcabs a). { replace 1 with (Qcabs ((1 - a) + a)) at 1; [apply Qcabs_triangle|]. replace ((1 - a) + a) with 1 by ring. apply Qcabs_pos. discriminate. }
  qclra.
Qed.
Lemma dissipative m hd J1 J2 : (forall x, form m (fun i j => hd * J1 i j + hd * hd * J2 i j) x <= 0) -> positive_definite m (wmat hd J1 J2).
Proof.
  intros H x (i & Hi & Xi). specialize (H x).
  assert (F : form m (wmat hd J1 J2) x = qsum m (fun r => x r * x r) - form m (fun i j => hd * J1 i j + hd * hd * J2 i j) x).
  { unfold form. rewrite <- qsum_sub. apply qsum_ext. intros r Hr.
    rewrite (qsum_ext m _ (fun c => delta r c * x c - (hd * J1 r c + hd * hd * J2 r c) * x c)) by (intros; unfold wmat; ring). rewrite qsum_sub.
    rewrite (qsum_single m r (fun c => delta r c * x c)) by (try exact Hr; intros c _ N; unfold delta; rewrite (proj2 (Nat.eqb_neq r c)) by (intro; subst; apply N; reflexivity); ring).
    unfold delta. rewrite Nat.eqb_refl. ring. }
  rewrite F. assert (P : 0 < qsum m (fun r => x r * x r)).
  { assert (Q : 0 <= qsum m (fun r => x r * x r)) by (apply qsum_nonneg; intros; apply sq_nonneg). assert (Q2 : qsum m (fun r => x r * x r) <> 0).
    { apply qsum_pos with i; [intros; apply sq_nonneg|exact Hi|]. intro Z. apply Qcmult_integral in Z. destruct Z; apply Xi; assumption. }
    destruct (Qclt_le_dec 0 (qsum m (fun r => x r * x r))) as [G|G]; [exact G|]. exfalso. apply Q2. apply Qcle_antisym; assumption. }
  qclra.
Qed.
Lemma hist_easy (l : list rcall) hd b : proper l -> requested l = Some hd -> hd <> 0 ->
  (forall i, (i < ro_m (ros_hist l))%nat -> qsum (ro_m (ros_hist l)) (fun j => Qcabs (hd * J1_ (ros_hist l) i j + hd * hd * J2_ (ros_hist l) i j)) < 1) \/
  (forall x, form (ro_m (ros_hist l)) (fun i j => hd * J1_ (ros_hist l) i j + hd * hd * J2_ (ros_hist l) i j) x <= 0) ->
  stencil_covers (w_stencil (ro_m (ros_hist l)) (J1_ (ros_hist l)) (J2_ (ros_hist l))) (ro_m (ros_hist l)) -> length b = ro_n (ros_hist l) -> (0 < ro_m (ros_hist l))%nat ->
  exists (r' : ros) (x : list Qc), ros_linSolve b hd (ros_hist l) = Ret (r', x) /\ length x = ro_n (ros_hist l) /\ solves (ro_n (ros_hist l)) (shifted hd (jac (ros_hist l))) (vfun x) (vfun b).
Proof.
  intros PR RQ H0 CL SC LB M0. apply hist_solve; try assumption. split.
  - destruct CL as [H|H]; [apply row_nonsingular, small_step; exact H|apply definite_nonsingular, dissipative; exact H].
  - apply pattern_fill. exact SC.
Qed.
