(** RosFacts3.v - linSolve, mult and call histories. *)
From Coq Require Import List Arith Bool Lia ZArith QArith Qcanon.
From Verif Require Import Base BaseFacts SMap SpModel SpSpec SpFacts SpFacts2 SpFacts3 SpFacts4 LUSpec LUModel LUFacts5 RkModel RkSpec StepModel RosModel RosSpec NewtFacts ImpFacts RosFacts RosFacts2.
Import ListNotations.
Local Open Scope nat_scope.

Lemma add_block_ok from count v (x : list Qc) g : from + count <= length x ->
  (forall i x', i < count -> length x' = length x -> (forall j, j < from \/ from + count <= j -> cmp_ x' j = cmp_ x j) -> v i x' = Ret (g i)) ->
  exists x', add_block from count v x = Ret x' /\ length x' = length x /\
    forall j, cmp_ x' j = if (from <=? j) && (j <? from + count) then (cmp_ x j + g (j - from)%nat)%Qc else cmp_ x j.
Proof.
  intros L HV. unfold add_block.
  destruct (ofor_inv (fun k (x' : list Qc) => length x' = length x /\ forall j, cmp_ x' j = if (from <=? j) && (j <? from + k) then (cmp_ x j + g (j - from)%nat)%Qc else cmp_ x j)
    0 count (fun i x => a <- rdat x (from + i) ;; b <- v i x ;; wrat x (from + i) (a + b)%Qc) x) as (x' & E & LX & V).
  - lia.
  - split; [reflexivity|]. intros j. destruct (Nat.leb_spec from j), (Nat.ltb_spec j (from + 0)); cbn [andb]; try reflexivity. lia.
  - intros k x' Hk (LX & V). rewrite (rdat_ok _ _ 0%Qc) by ql. cbn [obind]. rewrite HV; [|lia|exact LX|].
    + cbn [obind]. rewrite wrat_ok by lia. eexists. split; [reflexivity|]. split; [rewrite upd_length; exact LX|].
      intros j. unfold cmp_ at 1. destruct (Nat.eq_dec j (from + k)) as [->|D].
      * rewrite nth_upd_eq by lia. fold (cmp_ x' (from + k)). rewrite V.
        destruct (Nat.leb_spec from (from + k)), (Nat.ltb_spec (from + k) (from + k)), (Nat.ltb_spec (from + k) (from + S k)); cbn [andb]; try lia.
        replace (from + k - from) with k by lia. reflexivity.
      * rewrite nth_upd_neq by exact D. fold (cmp_ x' j). rewrite V.
        destruct (Nat.leb_spec from j), (Nat.ltb_spec j (from + k)), (Nat.ltb_spec j (from + S k)); cbn [andb]; try lia; reflexivity.
    + intros j Hj. rewrite V. destruct (Nat.leb_spec from j), (Nat.ltb_spec j (from + k)); cbn [andb]; try lia; reflexivity.
  - exists x'. auto.
Qed.

Section OneState.
Variable r : ros.
Hypothesis INV : ros_inv r.
Let n2 := ro_n2 r.
Let m := ro_m r.
Let n := ro_n r.

Lemma block_J2 (x : list Qc) : n2 <= length x ->
  exists b, mulVectRight (N:=QcNum) m (siter (ro_mats r) (ro_J2b r)) x (zeros m) = Ret b /\ length b = m /\
    forall i, i < m -> cmp_ b i = qsum n2 (fun k => J2_ r i k * cmp_ x k)%Qc.
Proof.
  intros L. pose proof INV as (((_ & OK & _) & _) & _).
  assert (IR : in_range (N:=QcNum) (ro_mats r) (ro_J2b r)).
  { split.
    - intros p v H. apply siter_In in H as [H _]; [|exact OK]. cbn [ro_J2b presents] in H. cbn [ro_J2b ssize]. tauto.
    - intros p H1 H2. cbn [ro_J2b ssize fst snd] in *. cbn [ro_J2b presents]. cbn. tauto. }
  destruct (mulVectRight_ok (ro_mats r) (ro_J2b r) x (zeros m) OK IR) as (b & E & LB & V & _).
  - exact L.
  - unfold zeros. rewrite repeat_length. cbn. reflexivity.
  - cbn [ro_J2b ssize fst snd] in E, V. exists b. split; [exact E|]. split; [exact (eq_trans LB (repeat_length 0%Qc m))|].
    intros i Hi. unfold cmp_. rewrite (V i Hi). apply qsum_ext. intros k Hk. unfold J2_. cbn [ro_J2b sget sscale sbase to_base fst snd]. unfold sget. cbn [ro_J2b sget sscale sbase to_base fst snd]. rewrite !Nat.add_0_r. reflexivity.
Qed.
Lemma J2_cols i k : n2 <= k -> J2_ r i k = 0%Qc.
Proof.
  intros H. pose proof INV as ((_ & _ & _ & _ & _ & P1 & _) & _). unfold J2_, get. destruct (sfind (obj (ro_mats r) 1) (i, k)) as [v|] eqn:E; [|reflexivity].
  destruct (P1 i k v E) as (_ & Q & _). unfold n2 in H. lia.
Qed.
Lemma nm : n = n2 + m. Proof. unfold n, n2, m, ro_n, ro_m. lia. Qed.
Lemma m_ge : n2 <= m. Proof. unfold n2, m, ro_m. lia. Qed.

(** the system I - hd*J *)
Definition sysmat (hd : Qc) (i k : nat) : Qc := (delta i k - hd * jac r i k)%Qc.
Lemma delta_sum N i (x : nat -> Qc) : i < N -> qsum N (fun k => delta i k * x k)%Qc = x i.
Proof.
  intros H. rewrite (qsum_single N i); [unfold delta; rewrite Nat.eqb_refl; ring|exact H|].
  intros k _ D. unfold delta. destruct (Nat.eqb_spec i k); [congruence|ring].
Qed.
Lemma jac_apply (x : nat -> Qc) i : i < n -> qsum n (fun k => jac r i k * x k)%Qc =
  if i <? n2 then x (n2 + i) else (qsum n2 (fun k => J2_ r (i - n2)%nat k * x k) + qsum m (fun k => J1_ r (i - n2)%nat k * x (n2 + k)%nat))%Qc.
Proof.
  intros Hi. unfold jac, companion. fold n2. destruct (Nat.ltb_spec i n2) as [H|H].
  - apply delta_sum. rewrite nm. pose proof m_ge. lia.
  - rewrite (qsum_split n n2) by (rewrite nm; lia). replace (n - n2) with m by (rewrite nm; lia). f_equal.
    + apply qsum_ext. intros k Hk. apply Nat.ltb_lt in Hk. rewrite Hk. reflexivity.
    + apply qsum_ext. intros k Hk. destruct (Nat.ltb_spec (n2 + k) n2); [lia|]. replace (n2 + k - n2) with k by lia. reflexivity.
Qed.
Lemma sys_apply hd (x : nat -> Qc) i : i < n -> qsum n (fun k => sysmat hd i k * x k)%Qc = (x i - hd * qsum n (fun k => jac r i k * x k))%Qc.
Proof.
  intros Hi. unfold sysmat. rewrite (qsum_ext n _ (fun k => delta i k * x k - hd * (jac r i k * x k))%Qc) by (intros; ring).
  rewrite qsum_sub, delta_sum by exact Hi. rewrite qsum_scale. reflexivity.
Qed.

Definition after_solve (s : lu) : ros := mkRos (ro_n2 r) (ro_n1 r) (ro_mats r) (match ro_lu r with Some k => store k s (ro_cache r) | None => ro_cache r end) (ro_lu r) (ro_hd r).
Lemma linSolve_red (b : list Qc) hd k s : length b = n -> 0 < m -> ro_lu r = Some k -> lookup k (ro_cache r) = Some s ->
  exists y, length y = m /\ (forall i, i < m -> cmp_ y i = (cmp_ b (n2 + i)%nat + qsum n2 (fun k => J2_ r i k * cmp_ b k) * hd)%Qc) /\
  match solve s y with
  | Ret (s', z) => length z = m -> exists x, ros_linSolve b hd r = Ret (after_solve s', x) /\ length x = n /\
      (forall i, i < n2 -> cmp_ x i = (cmp_ b i + cmp_ z i * hd)%Qc) /\ (forall i, i < m -> cmp_ x (n2 + i) = cmp_ z i)
  | Throw => ros_linSolve b hd r = Throw
  | UB => ros_linSolve b hd r = UB
  end.
Proof.
  intros LB MP EL LK. pose proof nm as NM. pose proof m_ge as MG.
  destruct (block_J2 b) as (c & E1 & LC & VC); [lia|].
  destruct (add_block_ok n2 m (fun i _ => e <- rdat c i ;; Ret (e * hd)%Qc) b (fun i => cmp_ c i * hd)%Qc) as (x1 & E2 & L1 & V1).
  { lia. } { intros i x' Hi _ _. rewrite (rdat_ok _ _ 0%Qc) by ql. reflexivity. }
  assert (RL : ros_linSolve b hd r = (q <- solve s (skipn n2 x1) ;; x3 <- add_block 0 n2 (fun i x => e <- rdat x (n2 + i) ;; Ret (e * hd)%Qc) (firstn n2 x1 ++ snd q) ;;
     Ret (mkRos (ro_n2 r) (ro_n1 r) (ro_mats r) (store k (fst q) (ro_cache r)) (ro_lu r) (ro_hd r), x3))).
  { unfold ros_linSolve. rewrite EL, LK. fold m. rewrite E1. cbn [obind]. fold n2. rewrite E2. cbn [obind]. rewrite (rdat_ok _ _ 0%Qc) by ql. reflexivity. }
  exists (skipn n2 x1). split; [rewrite skipn_length; lia|]. split.
  { intros i Hi. unfold cmp_ at 1. rewrite nth_skipn'. fold (cmp_ x1 (n2 + i)). rewrite V1.
    destruct (Nat.leb_spec n2 (n2 + i)), (Nat.ltb_spec (n2 + i) (n2 + m)); cbn [andb]; try lia. replace (n2 + i - n2) with i by lia. rewrite VC by exact Hi. reflexivity. }
  destruct (solve s (skipn n2 x1)) as [[s' z]| |] eqn:SO; rewrite RL; cbn [obind]; try reflexivity. intros LZ.
  assert (LF : length (firstn n2 x1) = n2) by (rewrite firstn_length; lia).
  set (x2 := firstn n2 x1 ++ z).
  assert (L2 : length x2 = n) by (unfold x2; rewrite app_length; lia).
  assert (V2 : forall i, i < m -> cmp_ x2 (n2 + i) = cmp_ z i) by (intros i Hi; unfold x2, cmp_; rewrite app_nth2 by lia; f_equal; lia).
  destruct (add_block_ok 0 n2 (fun i x => e <- rdat x (n2 + i) ;; Ret (e * hd)%Qc) x2 (fun i => cmp_ z i * hd)%Qc) as (x3 & E3 & L3 & V3).
  { lia. }
  { intros i x' Hi LX' HX. rewrite (rdat_ok _ _ 0%Qc) by ql. cbn [obind]. fold (cmp_ x' (n2 + i)). rewrite HX by lia. rewrite V2 by lia. reflexivity. }
  cbn [fst snd]. fold x2. rewrite E3. cbn [obind]. exists x3. split; [unfold after_solve; rewrite EL; reflexivity|]. split; [lia|]. split.
  - intros i Hi. rewrite V3. destruct (Nat.leb_spec 0 i), (Nat.ltb_spec i (0 + n2)); cbn [andb]; try lia. rewrite Nat.sub_0_r. f_equal.
    unfold x2, cmp_. rewrite app_nth1 by lia. rewrite nth_firstn' by exact Hi. fold (cmp_ x1 i). rewrite V1.
    destruct (Nat.leb_spec n2 i); [lia|]. reflexivity.
  - intros i Hi. rewrite V3. destruct (Nat.ltb_spec (n2 + i) (0 + n2)); [lia|]. rewrite andb_false_r. apply V2. exact Hi.
Qed.
Lemma inv_after k s s' y z : ro_lu r = Some k -> lookup k (ro_cache r) = Some s -> solve s y = Ret (s', z) -> ros_inv (after_solve s').
Proof.
  intros EL LK SO. pose proof INV as (MO & CO & LC & PT). unfold after_solve. rewrite EL. split; [exact MO|]. cbn [ro_n2 ro_n1 ro_mats ro_cache ro_lu ro_hd].
  split; [|split].
  - intros e H. apply store_In in H as [[-> _]|H]; [|auto]. destruct (CO _ (lookup_In _ _ _ LK)) as (s0 & E0 & H0). exists s0. cbn [fst snd] in *. split; [exact E0|].
    right. pose proof (solve_factorizes _ _ _ SO) as F. cbn [fst] in F. destruct H0 as [->|H0]; [exact F|].
    rewrite (factorize_idem _ _ H0) in F. congruence.
  - rewrite store_length. exact LC.
  - destruct PT as [(A & B & C)|[A [s1 B]]].
    + rewrite C in LK. discriminate.
    + right. split; [congruence|]. assert (k = ro_hd r) by congruence. subst k. exists s'. eapply lookup_store. exact B.
Qed.
Lemma linSolve_ok (b : list Qc) hd : ro_lu r = Some hd -> solvable r hd -> length b = n -> 0 < m ->
  exists s' x, ros_linSolve b hd r = Ret (after_solve s', x) /\ ros_inv (after_solve s') /\ length x = n /\ solves n (sysmat hd) (vfun x) (vfun b).
Proof.
  intros EL [NS FC] LB MP. pose proof nm as NM. pose proof m_ge as MG. pose proof INV as (MO & CO & LC & PT).
  assert (LK : exists s, lookup hd (ro_cache r) = Some s).
  { destruct PT as [(A & B & C)|[A B]]; [congruence|]. assert (hd = ro_hd r) by congruence. subst hd. exact B. }
  destruct LK as [s LK]. destruct (CO _ (lookup_In _ _ _ LK)) as (s0 & E0 & H0). cbn [fst snd] in *.
  destruct (linSolve_red b hd hd s LB MP EL LK) as (y & LY & VY & R).
  destruct (w_solve _ _ _ hd MO s0 y E0 NS FC LY) as (s' & z & SO & LZ & SZ).
  assert (SE : solve s y = Ret (s', z)) by (rewrite <- SO; apply (solve_entry (ro_mats r) (hd, s) s0 y E0 H0)).
  rewrite SE in R. destruct (R LZ) as (x & E & LX & V1 & V2). exists s', x. split; [exact E|]. split; [eapply inv_after; eauto|]. split; [exact LX|].
  intros i Hi. rewrite sys_apply by exact Hi. rewrite jac_apply by exact Hi. unfold vfun. fold (cmp_ x i). fold (cmp_ b i).
  destruct (Nat.ltb_spec i n2) as [H|H].
  - fold (cmp_ x (n2 + i)). rewrite V1 by exact H. rewrite V2 by lia. ring.
  - rewrite (qsum_ext m _ (fun k => J1_ r (i - n2)%nat k * cmp_ z k)%Qc) by (intros k Hk; fold (cmp_ x (n2 + k)%nat); rewrite V2 by exact Hk; reflexivity).
    rewrite (qsum_ext n2 _ (fun k => J2_ r (i - n2)%nat k * cmp_ b k + hd * (J2_ r (i - n2)%nat k * cmp_ z k))%Qc)
      by (intros k Hk; fold (cmp_ x k); rewrite V1 by exact Hk; ring).
    rewrite qsum_add, qsum_scale. replace i with (n2 + (i - n2)) at 1 by lia. rewrite V2 by lia.
    assert (IM : i - n2 < m) by lia. pose proof (SZ (i - n2) IM) as SR. unfold vfun in SR. fold (cmp_ y (i - n2)) in SR. rewrite VY in SR by exact IM.
    replace (n2 + (i - n2)) with i in SR by lia.
    assert (WS : qsum m (fun c => wmat hd (J1_ r) (J2_ r) (i - n2)%nat c * nth c z 0)%Qc =
      (cmp_ z (i - n2)%nat - hd * qsum m (fun k => J1_ r (i - n2)%nat k * cmp_ z k) - hd * hd * qsum n2 (fun k => J2_ r (i - n2)%nat k * cmp_ z k))%Qc).
    { rewrite (qsum_ext m _ (fun c => delta (i - n2)%nat c * cmp_ z c - hd * (J1_ r (i - n2)%nat c * cmp_ z c) - hd * hd * (J2_ r (i - n2)%nat c * cmp_ z c))%Qc)
        by (intros c Hc; unfold wmat, cmp_; ring).
      rewrite !qsum_sub, !qsum_scale, delta_sum by exact IM. f_equal. f_equal.
      rewrite (qsum_trunc m n2); [reflexivity|exact MG|]. intros k Hk. rewrite J2_cols by lia. ring. }
    assert (SR' : qsum m (fun c => wmat hd (J1_ r) (J2_ r) (i - n2)%nat c * nth c z 0)%Qc = (cmp_ b i + qsum n2 (fun k => J2_ r (i - n2)%nat k * cmp_ b k) * hd)%Qc) by exact SR.
    rewrite WS in SR'.
    match goal with |- ?l = _ => transitivity ((cmp_ z (i - n2)%nat - hd * qsum m (fun k => J1_ r (i - n2)%nat k * cmp_ z k) - hd * hd * qsum n2 (fun k => J2_ r (i - n2)%nat k * cmp_ z k)) - qsum n2 (fun k => J2_ r (i - n2)%nat k * cmp_ b k) * hd)%Qc end; [ring|].
    rewrite SR'. ring.
Qed.
Lemma mult_ok (dst x : list Qc) : length dst = n -> length x = n ->
  exists y, ros_mult dst x r = Ret y /\ length y = n /\ forall i, i < n -> cmp_ y i = matvec n (jac r) x i.
Proof.
  intros LD LX. pose proof nm as NM. pose proof m_ge as MG. pose proof INV as (((L4 & OK & _) & Z0 & _ & _ & P0 & _) & _).
  unfold ros_mult. fold n2. fold m.
  assert (B1 : (n2 + n2 <=? length x) && (n2 <=? length dst) = true) by (apply andb_true_iff; split; apply Nat.leb_le; lia). rewrite B1. cbn [negb].
  assert (IR : in_range (N:=QcNum) (ro_mats r) (SW (N:=QcNum) 0)).
  { split.
    - intros [i j] v H. rewrite siter_SW in H. apply sfind_In in H; [|apply OK]. cbn [ssize fst snd]. rewrite Z0. cbn [fst snd]. destruct (P0 i j v H) as (? & ? & _). auto.
    - intros p H1 H2. exact I. }
  destruct (mulVectRight_ok (ro_mats r) (SW (N:=QcNum) 0) (skipn n2 x) (skipn n2 dst) OK IR) as (y & EY & LY & VY & _).
  { cbn [ssize]. rewrite Z0. cbn [snd]. rewrite skipn_length. unfold m, ro_m in *. fold n2 in NM. lia. }
  { cbn [ssize]. rewrite Z0. cbn [fst]. rewrite skipn_length. unfold m, ro_m in *. fold n2 in NM. lia. }
  cbn [ssize] in EY, VY. rewrite EY. cbn [obind]. rewrite Z0 in VY. cbn [fst snd] in VY. fold (ro_m r) in VY. fold m in VY.
  destruct (block_J2 x) as (b & EB & LB & VB); [lia|]. rewrite EB. cbn [obind].
  set (d0 := firstn n2 (skipn n2 x) ++ y).
  assert (LF : length (firstn n2 (skipn n2 x)) = n2) by (rewrite firstn_length, skipn_length; lia).
  assert (LYM : length y = m) by (rewrite LY, skipn_length; lia).
  assert (L0 : length d0 = n) by (unfold d0; rewrite app_length; lia).
  destruct (add_block_ok n2 m (fun i _ => rdat b i) d0 (fun i => cmp_ b i)) as (d1 & ED & L1 & V1).
  { lia. } { intros i x' Hi _ _. rewrite (rdat_ok _ _ 0%Qc) by ql. reflexivity. }
  rewrite ED. exists d1. split; [reflexivity|]. split; [lia|]. intros i Hi. unfold matvec. rewrite (jac_apply (cmp_ x) i Hi). rewrite V1.
  destruct (Nat.ltb_spec i n2) as [H|H].
  - destruct (Nat.leb_spec n2 i); [lia|]. cbn [andb]. unfold d0, cmp_. rewrite app_nth1 by lia. rewrite nth_firstn' by exact H.
    rewrite nth_skipn'. reflexivity.
  - destruct (Nat.leb_spec n2 i), (Nat.ltb_spec i (n2 + m)); cbn [andb]; try lia. rewrite VB by lia.
    unfold d0, cmp_ at 1. rewrite app_nth2 by lia. rewrite LF. rewrite VY by lia.
    rewrite Qcplus_comm. f_equal. apply qsum_ext. intros k Hk. rewrite nth_skipn'. reflexivity.
Qed.
End OneState.

(** * call histories *)
Definition is_jac (n2 n1 : nat) f t x0 f0 (r : ros) : Prop := ro_n2 r = n2 /\ ro_n1 r = n1 /\ jspec n2 n1 f t x0 f0 (ro_mats r).
Lemma jspec_same n2 n1 f t x0 f0 m m' : same_J m m' -> jspec n2 n1 f t x0 f0 m -> jspec n2 n1 f t x0 f0 m'.
Proof. intros (A & B & _) H. unfold jspec. rewrite A, B. exact H. Qed.
Lemma init_hard n2 n1 f t x0 f0 hd r : store_ok (ro_mats r) -> call_ok (RInit true n2 n1 f t x0 f0 hd) ->
  exists r', ros_init true n2 n1 f t x0 f0 hd r = (r', Ret tt) /\ ros_inv r' /\ is_jac n2 n1 f t x0 f0 r' /\ ro_hd r' = hd /\ (hd <> 0%Qc -> ro_lu r' = Some hd).
Proof.
  intros S (G & LX & LF). unfold ros_init. set (r1 := mkRos n2 n1 (ro_mats r) (ro_cache r) (ro_lu r) (ro_hd r)).
  destruct (ros_build_ok f t x0 f0 r1 S G LX LF) as (m & E & MO & JS). rewrite E.
  destruct (ros_update_ok hd (mkRos (ro_n2 r1) (ro_n1 r1) m [] None 0%Qc)) as (r' & E' & I' & A & B & SJ & HD & PT).
  { split; [exact MO|]. split; [intros e []|]. split; [cbn; lia|]. left. auto. }
  exists r'. split; [exact E'|]. split; [exact I'|]. split; [|auto]. split; [exact A|]. split; [exact B|]. eapply jspec_same; [exact SJ|exact JS].
Qed.
Lemma init_soft n2 n1 f t x0 f0 hd r : ros_inv r -> exists r', ros_init false n2 n1 f t x0 f0 hd r = (r', Ret tt) /\ ros_inv r' /\
  ro_n2 r' = ro_n2 r /\ ro_n1 r' = ro_n1 r /\ same_J (ro_mats r) (ro_mats r') /\ ro_hd r' = hd /\ (hd <> 0%Qc -> ro_lu r' = Some hd).
Proof. intros I. unfold ros_init. apply ros_update_ok. exact I. Qed.
Lemma linSolve_ret r x hd r' y : ros_inv r -> ros_linSolve x hd r = Ret (r', y) ->
  ros_inv r' /\ ro_n2 r' = ro_n2 r /\ ro_n1 r' = ro_n1 r /\ ro_mats r' = ro_mats r /\ ro_hd r' = ro_hd r /\ ro_lu r' = ro_lu r.
Proof.
  intros INV E. unfold ros_linSolve in E. destruct (ro_lu r) as [k|] eqn:EL; [|discriminate]. destruct (lookup k (ro_cache r)) as [s|] eqn:LK; [|discriminate].
  binv E. binv E. binv E. destruct (solve s _) as [[s' z]| |] eqn:SO; cbn [obind] in E; try discriminate. binv E.
  injection E as <- <-. pose proof (inv_after r INV k s s' _ z EL LK SO) as Q. unfold after_solve in Q. rewrite EL in Q. cbn [fst] in *. split; [exact Q|auto].
Qed.

Definition hist_inv (l : list rcall) : Prop :=
  ros_inv (ros_hist l) /\
  (forall hd, requested l = Some hd -> ro_hd (ros_hist l) = hd /\ (hd <> 0%Qc -> ro_lu (ros_hist l) = Some hd)) /\
  (forall hard n2 n1 f t x0 f0 hd, last_hard l = Some (RInit hard n2 n1 f t x0 f0 hd) -> is_jac n2 n1 f t x0 f0 (ros_hist l)).
Lemma hist_snoc l c : ros_hist (l ++ [c]) = ros_do (ros_hist l) c.
Proof. unfold ros_hist. rewrite fold_left_app. reflexivity. Qed.
Lemma requested_snoc l c : requested (l ++ [c]) = match c with RInit _ _ _ _ _ _ _ hd => Some hd | _ => requested l end.
Proof. unfold requested. rewrite fold_left_app. reflexivity. Qed.
Lemma last_hard_snoc l c : last_hard (l ++ [c]) = match c with RInit true _ _ _ _ _ _ _ => Some c | _ => last_hard l end.
Proof. unfold last_hard. rewrite fold_left_app. reflexivity. Qed.
Lemma hist_ok l : proper l -> hist_inv l.
Proof.
  induction l as [|c l IH] using rev_ind; intros [CO (n2 & n1 & f & t & x0 & f0 & hd & l' & E)]; [discriminate|].
  apply Forall_app in CO as [CO CC]. inversion CC as [|? ? C1 _]; subst.
  destruct l as [|c0 l0].
  - cbn [app] in E. injection E as -> _. cbn [app].
    destruct (init_hard n2 n1 f t x0 f0 hd ros_new store_ok_new C1) as (r' & ER & I' & J' & HD & PT).
    assert (RH : ros_hist [RInit true n2 n1 f t x0 f0 hd] = r') by (unfold ros_hist; cbn [fold_left ros_do]; rewrite ER; reflexivity).
    unfold hist_inv. rewrite RH. split; [exact I'|]. split.
    + intros h Hh. cbn in Hh. injection Hh as <-. auto.
    + intros hard n2' n1' f' t' x0' f0' hd' H. cbn in H. injection H as <- <- <- <- <- <- <- <-. exact J'.
  - assert (P : proper (c0 :: l0)).
    { split; [exact CO|]. cbn [app] in E. injection E as -> _. do 8 eexists. reflexivity. }
    destruct (IH P) as (I0 & R0 & J0). set (l := c0 :: l0) in *. unfold hist_inv. rewrite hist_snoc, requested_snoc, last_hard_snoc. set (r := ros_hist l) in *.
    destruct c as [[|] a2 a1 g u y0 g0 h|x h]; cbn [ros_do].
    + destruct (init_hard a2 a1 g u y0 g0 h r (proj1 (proj1 I0)) C1) as (r' & ER & I' & J' & HD & PT). rewrite ER. cbn [fst].
      split; [exact I'|]. split; [intros h' Hh; injection Hh as <-; auto|]. intros hard n2' n1' f' t' x0' f0' hd' H. injection H as <- <- <- <- <- <- <- <-. exact J'.
    + destruct (init_soft a2 a1 g u y0 g0 h r I0) as (r' & ER & I' & A & B & SJ & HD & PT). rewrite ER. cbn [fst].
      split; [exact I'|]. split; [intros h' Hh; injection Hh as <-; auto|]. intros hard n2' n1' f' t' x0' f0' hd' H.
      destruct (J0 _ _ _ _ _ _ _ _ H) as (Q1 & Q2 & Q3). split; [congruence|]. split; [congruence|]. eapply jspec_same; [exact SJ|exact Q3].
    + destruct (ros_linSolve x h r) as [[r' z]| |] eqn:ER; [|split; [exact I0|split; [exact R0|exact J0]]|split; [exact I0|split; [exact R0|exact J0]]].
      destruct (linSolve_ret r x h r' z I0 ER) as (I' & A & B & M & HD & PT). split; [exact I'|]. rewrite HD, PT. split; [exact R0|].
      intros hard n2' n1' f' t' x0' f0' hd' H. destruct (J0 _ _ _ _ _ _ _ _ H) as (Q1 & Q2 & Q3). unfold is_jac. rewrite A, B, M. auto.
Qed.
