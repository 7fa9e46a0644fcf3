(** BroFacts2.v - the algebra of the updates, failure of Broyden's update outside the pattern, and histories. *)
From Coq Require Import List Arith Bool QArith Qcanon Lia Lqa Qfield.
From Verif Require Import Base BaseFacts SMap SpModel SpSpec SpFacts SpFacts2 SpFacts3 SpFacts4 MapModel JacModel JacSpec JacFacts VecModel VOps
  LUModel LUSpec LUFacts LUFacts2 LUFacts3 LUFacts4 LUFacts5 NewtModel NewtSpec NewtFacts NewtFacts2 NewtFacts4 RkSpec ImpFacts BroModel BroSpec BroFacts.
Import ListNotations.
Local Open Scope nat_scope.

(** ** Broyden's formula *)
Lemma broyden_apply n e B s y z i : mapply n (broyden_next n e B s y) z i =
  (mapply n B z i + (y i - mapply n B s i) / normsq n s * qsum n (fun c => s c * z c))%Qc.
Proof.
  unfold mapply at 1, broyden_next. set (t := ((y i - mapply n B s i) / normsq n s)%Qc). rewrite <- qsum_scale. unfold mapply. rewrite <- qsum_add.
  apply qsum_ext. intros. ring.
Qed.
Lemma broyden_secant n e B s y i : normsq n s <> 0%Qc -> mapply n (broyden_next n e B s y) s i = y i.
Proof. intros NZ. rewrite broyden_apply. fold (normsq n s). field. exact NZ. Qed.
Lemma broyden_orth n e B s y z i : qsum n (fun c => s c * z c)%Qc = 0%Qc -> mapply n (broyden_next n e B s y) z i = mapply n B z i.
Proof. intros Z. rewrite broyden_apply, Z. ring. Qed.
Lemma qsum_le n f g : (forall i, i < n -> (f i <= g i)%Qc) -> (qsum n f <= qsum n g)%Qc.
Proof.
  intros H. assert (P : (0 <= qsum n (fun i => g i - f i))%Qc). { apply qsum_nonneg. intros i L. specialize (H i L). clear - H. qclra. }
  rewrite qsum_sub in P. clear - P. qclra.
Qed.
Lemma row_decomp n (D s : nat -> Qc) t : qsum n (fun j => D j * s j)%Qc = (t * normsq n s)%Qc ->
  qsum n (fun j => D j * D j)%Qc = (qsum n (fun j => (t * s j) * (t * s j)) + qsum n (fun j => (D j - t * s j) * (D j - t * s j)))%Qc.
Proof.
  intros E. assert (X : qsum n (fun j => (t * s j) * (D j - t * s j))%Qc = 0%Qc).
  { erewrite qsum_ext with (g := fun j => (t * (D j * s j) - (t * t) * (s j * s j))%Qc); [|intros; ring].
    rewrite qsum_sub, !qsum_scale, E. unfold normsq. ring. }
  rewrite <- qsum_add. rewrite <- (Qcplus_0_r (qsum n (fun i => _ + _)))%Qc. rewrite <- (Qcmult_0_r (1 + 1)). rewrite <- X. rewrite <- qsum_scale, <- qsum_add.
  apply qsum_ext. intros. ring.
Qed.
Lemma broyden_row n e B s y (C : matrix) i : normsq n s <> 0%Qc -> mapply n C s i = y i ->
  qsum n (fun j => (C i j - B i j) * (C i j - B i j))%Qc =
  (qsum n (fun j => (broyden_next n e B s y i j - B i j) * (broyden_next n e B s y i j - B i j)) +
   qsum n (fun j => (C i j - broyden_next n e B s y i j) * (C i j - broyden_next n e B s y i j)))%Qc.
Proof.
  intros NZ E. set (t := ((y i - mapply n B s i) / normsq n s)%Qc).
  assert (H : qsum n (fun j => (C i j - B i j) * s j)%Qc = (t * normsq n s)%Qc).
  { erewrite qsum_ext with (g := fun j => (C i j * s j - B i j * s j)%Qc); [|intros; ring]. rewrite qsum_sub.
    fold (mapply n C s i). fold (mapply n B s i). rewrite E. unfold t. field. exact NZ. }
  etransitivity; [exact (row_decomp n (fun j => C i j - B i j)%Qc s t H)|]. f_equal; apply qsum_ext; intros j Hj; unfold broyden_next; fold t; ring.
Qed.
Lemma broyden_least n e B s y (C : matrix) : normsq n s <> 0%Qc -> (forall i, i < n -> mapply n C s i = y i) ->
  (distsq n (broyden_next n e B s y) B <= distsq n C B)%Qc.
Proof.
  intros NZ H. apply qsum_le. intros i Hi. rewrite (broyden_row n e B s y C i NZ (H i Hi)).
  assert (P : (0 <= qsum n (fun j => (C i j - broyden_next n e B s y i j) * (C i j - broyden_next n e B s y i j)))%Qc) by (apply qsum_nonneg; intros; apply sq_nonneg).
  revert P. generalize (qsum n (fun j => (C i j - broyden_next n e B s y i j) * (C i j - broyden_next n e B s y i j))%Qc).
  generalize (qsum n (fun j => (broyden_next n e B s y i j - B i j) * (broyden_next n e B s y i j - B i j))%Qc). intros; qclra.
Qed.
(** the only matrix that maps s to y at that distance *)
Lemma broyden_unique n e B s y (C : matrix) : normsq n s <> 0%Qc -> (forall i, i < n -> mapply n C s i = y i) ->
  (distsq n C B <= distsq n (broyden_next n e B s y) B)%Qc -> forall i j, i < n -> j < n -> C i j = broyden_next n e B s y i j.
Proof.
  intros NZ H LE.
  assert (S : distsq n C B = (distsq n (broyden_next n e B s y) B + distsq n C (broyden_next n e B s y))%Qc).
  { unfold distsq. rewrite <- qsum_add. apply qsum_ext. intros i Hi. apply (broyden_row n e B s y C i NZ (H i Hi)). }
  assert (Z : distsq n C (broyden_next n e B s y) = 0%Qc).
  { assert (P : (0 <= distsq n C (broyden_next n e B s y))%Qc). { apply qsum_nonneg. intros. apply qsum_nonneg. intros. apply sq_nonneg. }
    rewrite S in LE. clear - LE P. revert LE P. generalize (distsq n C (broyden_next n e B s y)) (distsq n (broyden_next n e B s y) B). intros a b A P.
    apply Qcle_antisym; [qclra|assumption]. }
  intros i j Hi Hj. destruct (Qc_eq_dec (C i j) (broyden_next n e B s y i j)) as [E|E]; [assumption|]. exfalso.
  revert Z. apply (qsum_pos n _ i); auto.
  - intros. apply qsum_nonneg. intros. apply sq_nonneg.
  - apply (qsum_pos n _ j); auto.
    + intros. apply sq_nonneg.
    + intros M. apply E. apply Qcmult_integral in M. assert (M' : (C i j - broyden_next n e B s y i j)%Qc = 0%Qc) by tauto. clear - M'. qclra.
Qed.
Lemma broyden_exact n e B s y i j : (forall i, i < n -> mapply n B s i = y i) -> i < n -> broyden_next n e B s y i j = B i j.
Proof. intros H Hi. unfold broyden_next. rewrite H by assumption. unfold Qcdiv. ring. Qed.

(** ** The update of the stored positions: what is left of the discrepancy in a row *)
Lemma fake_row n e B s y i : normsq n s <> 0%Qc ->
  (y i - mapply n (fake_next n e B s y) s i)%Qc = ((y i - mapply n B s i) * (1 - row_share n e s i))%Qc.
Proof.
  intros NZ.
  assert (E : mapply n (fake_next n e B s y) s i = (mapply n B s i + (y i - mapply n B s i) / normsq n s * qsum n (fun j => if storedb e i j then s j * s j else 0))%Qc).
  { unfold mapply at 1, fake_next, broyden_next. set (t := ((y i - mapply n B s i) / normsq n s)%Qc). rewrite <- qsum_scale. unfold mapply. rewrite <- qsum_add.
    apply qsum_ext. intros j Hj. destruct (storedb e i j); ring. }
  rewrite E. unfold row_share. field. exact NZ.
Qed.
Lemma row_share_bounds n e s i : normsq n s <> 0%Qc -> (0 <= row_share n e s i)%Qc /\ (row_share n e s i <= 1)%Qc.
Proof.
  intros NZ. assert (NN : (0 <= normsq n s)%Qc) by (apply qsum_nonneg; intros; apply sq_nonneg).
  assert (PP : (0 < normsq n s)%Qc). { destruct (Qclt_le_dec 0 (normsq n s)) as [A|A]; [assumption|]. exfalso. apply NZ. apply Qcle_antisym; assumption. }
  set (w := qsum n (fun j => if storedb e i j then s j * s j else 0)%Qc).
  assert (W0 : (0 <= w)%Qc). { apply qsum_nonneg. intros j _. destruct (storedb e i j); [apply sq_nonneg|qclra]. }
  assert (W1 : (w <= normsq n s)%Qc). { apply qsum_le. intros j _. destruct (storedb e i j); [apply Qcle_refl|apply sq_nonneg]. }
  assert (E : (row_share n e s i * normsq n s)%Qc = w). { unfold row_share. fold w. field. exact NZ. }
  revert E. generalize (row_share n e s i) as q. intros q E. clear - E W0 W1 PP. revert E W0 W1 PP. generalize (normsq n s) w. intros m v E W0 W1 PP. split.
  - destruct (Qclt_le_dec q 0) as [A|A]; [|assumption]. exfalso. assert (q * m < 0)%Qc by (clear - A PP; qcnra). qclra.
  - destruct (Qclt_le_dec 1 q) as [A|A]; [|assumption]. exfalso. assert (m < q * m)%Qc by (clear - A PP; qcnra). qclra.
Qed.
Lemma fake_row_le n e B s y i : normsq n s <> 0%Qc -> (Qcabs (y i - mapply n (fake_next n e B s y) s i) <= Qcabs (y i - mapply n B s i))%Qc.
Proof.
  intros NZ. rewrite (fake_row n e B s y i NZ). destruct (row_share_bounds n e s i NZ) as [A0 A1]. revert A0 A1.
  generalize (row_share n e s i) (y i - mapply n B s i)%Qc. intros q d A0 A1.
  destruct (Qclt_le_dec d 0) as [S|S].
  - rewrite (Qcabs_neg d) by qclra. rewrite Qcabs_neg by (clear - S A0 A1; qcnra). clear - S A0 A1; qcnra.
  - rewrite (Qcabs_pos d) by qclra. rewrite Qcabs_pos by (clear - S A0 A1; qcnra). clear - S A0 A1; qcnra.
Qed.
Lemma fake_row_covered n e B s y i : normsq n s <> 0%Qc -> (forall j, j < n -> s j <> 0%Qc -> stored e i j) -> mapply n (fake_next n e B s y) s i = y i.
Proof.
  intros NZ C. pose proof (fake_row n e B s y i NZ) as E.
  assert (W : row_share n e s i = 1%Qc).
  { unfold row_share. erewrite qsum_ext with (g := fun j => (s j * s j)%Qc).
    - fold (normsq n s). field. exact NZ.
    - intros j Hj. cbv beta. destruct (storedb e i j) eqn:SB; [reflexivity|]. destruct (Qc_eq_dec (s j) 0) as [Z|Z]; [rewrite Z; ring|].
      exfalso. apply C in Z; [|assumption]. apply storedb_spec in Z. congruence. }
  rewrite W in E. revert E. generalize (mapply n (fake_next n e B s y) s i) (mapply n B s i) (y i). intros a b c E.
  assert (X : (c - a)%Qc = 0%Qc) by (rewrite E; ring). clear - X. qclra.
Qed.

(** ** Exactly when Broyden's update throws *)
Lemma ofor_dich {S} (P : nat -> S -> Prop) (Q : nat -> Prop) a b body (s : S) : a <= b -> P a s ->
  (forall k x, a <= k < b -> P k x -> (exists x', body k x = Ret x' /\ P (Datatypes.S k) x' /\ Q k) \/ (body k x = Throw /\ ~ Q k)) ->
  (exists s', ofor a b body s = Ret s' /\ P b s' /\ forall k, a <= k < b -> Q k) \/ (ofor a b body s = Throw /\ exists k, a <= k < b /\ ~ Q k).
Proof.
  unfold ofor. intros Hab H0 HS. remember (b - a) as cnt eqn:Hc. revert a s Hab Hc H0 HS. induction cnt; intros a s Hab Hc H0 HS; simpl.
  - left. assert (a = b) by lia. subst. exists s. repeat split; auto. intros k Hk. lia.
  - destruct (HS a s ltac:(lia) H0) as [[x' [E [HP HQ]]]|[E NQ]].
    + rewrite E. cbn [obind]. destruct (IHcnt (Datatypes.S a) x' ltac:(lia) ltac:(lia) HP) as [[s' [E' [P' Q']]]|[E' [k [Hk Qk]]]].
      * intros k x Hk. apply HS. lia.
      * left. exists s'. repeat split; auto. intros k Hk. destruct (Nat.eq_dec k a) as [->|]; [assumption|]. apply Q'. lia.
      * right. split; [exact E'|]. exists k. split; [lia|assumption].
    + right. rewrite E. split; [reflexivity|]. exists a. split; [lia|assumption].
Qed.
Lemma broyden_elems_dich n J (left dx : list Qc) : square n J -> length left = n -> length dx = n ->
  ((exists J', broyden_elems (N:=QcNum) n left dx J = Ret J') /\ (forall i j, i < n -> j < n -> (vfun left i * vfun dx j <> 0)%Qc -> stored (sdat J) i j)) \/
  (broyden_elems (N:=QcNum) n left dx J = Throw /\ exists i j, i < n /\ j < n /\ (vfun left i * vfun dx j <> 0)%Qc /\ ~ stored (sdat J) i j).
Proof.
  intros SQ LL LD. unfold broyden_elems.
  set (need := fun i j => (vfun left i * vfun dx j <> 0)%Qc -> stored (sdat J) i j).
  destruct (ofor_dich (fun i J' => same_keys J J') (fun i => forall j, j < n -> need i j)
     0 n (fun i J => ofor 0 n (fun j J => l <- rdat left i ;; d <- rdat dx j ;;
      let x := nmul QcNum l d in
      if neqb QcNum x (n0 QcNum) then Ret J else at_upd J (i, j) (fun y => nadd QcNum y x)) J) J) as [[s' [E [_ A]]]|[E [i [Hi A]]]].
  - lia.
  - apply same_keys_refl.
  - intros i J1 Hi K1.
    destruct (ofor_dich (fun j J' => same_keys J J') (fun j => need i j)
     0 n (fun j J => l <- rdat left i ;; d <- rdat dx j ;;
      let x := nmul QcNum l d in
      if neqb QcNum x (n0 QcNum) then Ret J else at_upd J (i, j) (fun y => nadd QcNum y x)) J1) as [[s' [E [K A]]]|[E [j [Hj A]]]].
    + lia.
    + exact K1.
    + intros j J2 Hj K2.
      assert (R1 : rdat left i = Ret (vfun left i)) by (apply rdat_ok; lia). assert (R2 : rdat dx j = Ret (vfun dx j)) by (apply rdat_ok; lia).
      change (nT QcNum) with Qc in *. rewrite R1. cbn [obind]. rewrite R2. cbn [obind]. cbv zeta.
      destruct (neqb QcNum (nmul QcNum (vfun left i) (vfun dx j)) (n0 QcNum)) eqn:EZ.
      * left. exists J2. repeat split; auto; try apply K2. intros NZ. exfalso. apply NZ. apply Qceqb_eq in EZ. exact EZ.
      * assert (NZ : (vfun left i * vfun dx j <> 0)%Qc). { intros Z. apply (f_equal (fun q => Qceqb q 0)) in Z. rewrite Qceqb_refl in Z. unfold neqb in EZ. cbn in EZ. congruence. }
        destruct (storedb (sdat J) i j) eqn:SB.
        -- apply storedb_spec in SB. assert (S2 : stored (sdat J2) i j) by (apply (stored_keys (sdat J2) (sdat J) i j); [apply K2|exact SB]).
           destruct (at_upd_add n J2 i j (nmul QcNum (vfun left i) (vfun dx j)) (same_keys_square n J J2 SQ K2) S2) as [J3 [E3 [K3 V3]]].
           left. exists J3. split; [exact E3|]. split; [eapply same_keys_trans; eassumption|]. intros _. exact SB.
        -- right. assert (NS : ~ stored (sdat J) i j) by (intros X; apply storedb_spec in X; congruence). split; [|intros X; exact (NS (X NZ))].
           pose proof (same_keys_square n J J2 SQ K2) as [F2 [_ [RM2 _]]].
           apply at_upd_fast_absent; auto. intros x Ix. apply NS. apply (stored_keys (sdat J2) (sdat J) i j); [apply K2|]. exists x. exact Ix.
    + left. exists s'. split; [exact E|]. split; [exact K|]. intros j Hj. apply A. lia.
    + right. split; [exact E|]. intros X. apply A. apply X. lia.
  - left. split; [exists s'; exact E|]. intros i j Hi Hj. apply A; lia.
  - right. split; [exact E|].
    assert (X : exists j, j < n /\ (vfun left i * vfun dx j <> 0)%Qc /\ ~ stored (sdat J) i j).
    { clear - A. destruct (existsb (fun j => negb (Qceqb (vfun left i * vfun dx j) 0) && negb (storedb (sdat J) i j)) (seq 0 n)) eqn:EX.
      - apply existsb_exists in EX. destruct EX as [j [Hj C]]. apply in_seq in Hj. apply andb_true_iff in C. destruct C as [C1 C2].
        exists j. split; [lia|]. split. + intros Z. rewrite Z, Qceqb_refl in C1. discriminate. + intros Z. apply storedb_spec in Z. rewrite Z in C2. discriminate.
      - exfalso. apply A. intros j Hj NZ. destruct (storedb (sdat J) i j) eqn:SB; [apply storedb_spec; exact SB|]. exfalso.
        assert (T : existsb (fun j => negb (Qceqb (vfun left i * vfun dx j) 0) && negb (storedb (sdat J) i j)) (seq 0 n) = true).
        { apply existsb_exists. exists j. split; [apply in_seq; lia|]. rewrite SB. destruct (Qceqb (vfun left i * vfun dx j) 0) eqn:Q; [|reflexivity].
          apply Qceqb_eq in Q. contradiction. }
        congruence. }
    destruct X as [j [Hj [X1 X2]]]. exists i, j. repeat split; auto; lia.
Qed.
