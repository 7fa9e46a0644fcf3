(** BroFacts.v - proofs about the quasi-Newton updates of one matrix. *)
From Coq Require Import List Arith Bool QArith Qcanon Lia Lqa Qfield.
From Verif Require Import Base BaseFacts SMap SpModel SpSpec SpFacts SpFacts2 SpFacts3 SpFacts4 MapModel JacModel JacSpec JacFacts VecModel VOps
  LUModel LUSpec LUFacts LUFacts2 LUFacts3 LUFacts4 LUFacts5 NewtModel NewtSpec NewtFacts NewtFacts2 NewtFacts4 RkSpec ImpFacts BroModel BroSpec.
Import ListNotations.
Local Open Scope nat_scope.

Lemma lnorm2_fold_sum (v : list Qc) : forall s, fold_left (fun s x => (s + x * x)%Qc) v s = (s + qsum (length v) (fun i => nth i v 0 * nth i v 0))%Qc.
Proof.
  induction v as [|a v I]; intros s. { cbn. ring. }
  cbn [fold_left length]. rewrite I, qsum_shift. cbn [nth]. ring.
Qed.
Lemma lnorm2_sum (v : list Qc) : lnorm2 (N:=QcNum) v = normsq (length v) (vfun v).
Proof. unfold lnorm2, normsq, vfun. etransitivity; [exact (lnorm2_fold_sum v 0%Qc)|]. cbn. ring. Qed.
Lemma normsq_ext n u v : (forall i, i < n -> u i = v i) -> normsq n u = normsq n v.
Proof. intros E. apply qsum_ext. intros i L. rewrite E by assumption. reflexivity. Qed.
Lemma normsq_zero n v : normsq n v = 0%Qc -> forall i, i < n -> v i = 0%Qc.
Proof.
  intros Z i L. destruct (Qc_eq_dec (v i) 0) as [E|E]; [assumption|]. exfalso.
  apply (qsum_pos n (fun c => v c * v c)%Qc i); auto. { intros. apply sq_nonneg. }
  intros M. apply Qcmult_integral in M. tauto.
Qed.
Lemma normsq_diff n (x y : list Qc) : length x = n -> length y = n -> x <> y -> normsq n (vdiff x y) <> 0%Qc.
Proof.
  intros Lx Ly D Z. apply D. apply (list_ext 0%Qc x y); [congruence|]. intros i L. rewrite Lx in L.
  pose proof (normsq_zero n _ Z i L) as E. unfold vdiff, vfun in E. clear - E. qclra.
Qed.
Lemma vdiff_out n (x y : list Qc) i : length x = n -> length y = n -> n <= i -> vdiff x y i = 0%Qc.
Proof. intros. unfold vdiff, vfun. rewrite !nth_overflow by lia. ring. Qed.

(** ** The parts of the update *)
Lemma square_smulv n J v : square n J -> length v = n ->
  exists w : list Qc, smulv [J] (SW 0) v = Ret w /\ length w = n /\ forall r, r < n -> nth r w 0%Qc = mapply n (mval (sdat J)) (vfun v) r.
Proof.
  intros [F [SZ [RM ST]]] L.
  assert (OK : mems_ok [J]). { intros [|[|id]]; unfold obj; simpl; auto. }
  assert (IR : in_range [J] (SW 0)).
  { split.
    - intros p x H. rewrite siter_SW in H. unfold obj in H. cbn [nth] in H. unfold ssize, obj; cbn [nth]. rewrite SZ. cbn [fst snd].
      destruct p as [r c]. apply (ST r c). exists x. exact H.
    - intros p _ _. exact I. }
  destruct (smulv_ok [J] (SW 0) v OK IR) as [w [E [LW V]]]. { unfold ssize, obj; cbn [nth]. rewrite SZ. exact L. }
  unfold ssize, obj in LW, V; cbn [nth] in LW, V. rewrite SZ in LW, V. cbn [fst snd] in LW, V.
  exists w. split; [exact E|]. split; [exact LW|]. intros r Hr. rewrite (V r Hr). unfold mapply. apply qsum_ext. intros c Hc.
  rewrite (jac_mval J r c RM). unfold sget, sscale, to_base, sbase, obj; cbn [nth]. reflexivity.
Qed.
Lemma lsub_n (a b : list Qc) n : length a = n -> length b = n ->
  exists r : list Qc, lsub (N:=QcNum) a b = Ret r /\ length r = n /\ forall j, vfun r j = vdiff a b j.
Proof.
  intros La Lb. destruct (lsub_cmp a b ltac:(lia)) as [r [E [L V]]]. exists r. split; [exact E|]. split; [lia|].
  intros j. unfold vdiff. destruct (lt_dec j n) as [H|H].
  - apply V. lia.
  - unfold vfun. rewrite !nth_overflow by lia. ring.
Qed.
Lemma mapply_ext n B u v i : (forall j, j < n -> u j = v j) -> mapply n B u i = mapply n B v i.
Proof. intros E. apply qsum_ext. intros c L. rewrite E by assumption. reflexivity. Qed.
Lemma mapply_extm n A B u i : (forall j, j < n -> A i j = B i j) -> mapply n A u i = mapply n B u i.
Proof. intros E. apply qsum_ext. intros c L. rewrite E by assumption. reflexivity. Qed.
Lemma vfun_lscale (v : list Qc) k j : vfun (lscale (N:=QcNum) v k) j = (vfun v j * k)%Qc.
Proof. exact (vfun_scale v k j). Qed.
Lemma secant_parts_ok n J (x f xp fp : list Qc) : square n J -> length x = n -> length f = n -> length xp = n -> length fp = n ->
  exists dx left : list Qc, secant_parts (N:=QcNum) J x f xp fp = Ret (dx, left) /\ length dx = n /\ length left = n /\
    (forall j, vfun dx j = vdiff x xp j) /\
    (forall i, i < n -> vfun left i = ((vdiff f fp i - mapply n (mval (sdat J)) (vdiff x xp) i) / normsq n (vdiff x xp))%Qc).
Proof.
  intros SQ Lx Lf Lxp Lfp. unfold secant_parts.
  destruct (lsub_n x xp n Lx Lxp) as [dx [E1 [L1 V1]]]. rewrite E1. cbn [obind].
  destruct (lsub_n f fp n Lf Lfp) as [df [E2 [L2 V2]]]. rewrite E2. cbn [obind].
  destruct (square_smulv n J dx SQ L1) as [w [E3 [L3 V3]]]. rewrite E3. cbn [obind].
  destruct (lsub_n df w n L2 L3) as [l [E4 [L4 V4]]]. rewrite E4. cbn [obind].
  eexists. eexists. split; [reflexivity|]. split; [exact L1|]. split; [exact (eq_trans (lscale_length (N:=QcNum) l _) L4)|]. split; [exact V1|].
  intros i Hi. rewrite vfun_lscale, V4. unfold vdiff at 1. rewrite V2. rewrite (lnorm2_sum dx), L1.
  rewrite (normsq_ext n (vfun dx) (vdiff x xp)) by (intros; apply V1).
  change (vfun w i) with (nth i w 0%Qc). rewrite (V3 i Hi). rewrite (mapply_ext n _ (vfun dx) (vdiff x xp) i) by (intros; apply V1).
  cbn [ndiv QcNum n1]. unfold Qcdiv. ring.
Qed.

(** ** Broyden's update *)
Lemma mval_In (d : list (key * Qc)) r c : row_major (N:=QcNum) d -> stored d r c -> In ((r, c), mval d r c) d.
Proof. intros R [v H]. rewrite (row_major_mval d R r c v H). exact H. Qed.
Lemma stored_keys (d e : list (key * Qc)) r c : map fst d = map fst e -> (stored d r c <-> stored e r c).
Proof.
  assert (A : forall d e : list (key * Qc), map fst d = map fst e -> stored d r c -> stored e r c).
  { intros d' e' E [v H]. apply (in_map (@fst key Qc) d' _) in H. rewrite E in H. apply in_map_iff in H. destruct H as [[k w] [K H]]. cbn in K. subst k. exists w. exact H. }
  intros E. split; apply A; congruence.
Qed.
Lemma square_keys n J J' : square n J -> fast J' = fast J -> ssz J' = ssz J -> map fst (sdat J') = map fst (sdat J) -> square n J'.
Proof.
  intros [F [SZ [RM ST]]] F' S' K. split; [congruence|]. split; [congruence|]. split.
  - eapply row_major_keys; [symmetry; exact K|exact RM].
  - intros r c H. apply ST. apply (stored_keys _ _ r c K). exact H.
Qed.
Definition same_keys (J J' : smat QcNum) : Prop := fast J' = fast J /\ ssz J' = ssz J /\ map fst (sdat J') = map fst (sdat J).
Lemma same_keys_refl J : same_keys J J. Proof. repeat split. Qed.
Lemma same_keys_trans A B C : same_keys A B -> same_keys B C -> same_keys A C.
Proof. intros [a [b c]] [d [e f]]. repeat split; congruence. Qed.
Lemma same_keys_square n J J' : square n J -> same_keys J J' -> square n J'.
Proof. intros S [a [b c]]. eapply square_keys; eauto. Qed.
Lemma at_upd_add n J i j x : square n J -> stored (sdat J) i j ->
  exists J', at_upd J (i, j) (fun y => nadd QcNum y x) = Ret J' /\ same_keys J J' /\
    forall r c, mval (sdat J') r c = (mval (sdat J) r c + (if Nat.eqb r i && Nat.eqb c j then x else 0))%Qc.
Proof.
  intros SQ ST. pose proof SQ as [F [SZ [RM _]]].
  destruct (at_upd_fast J (i, j) (fun y => nadd QcNum y x) F RM _ (mval_In _ _ _ RM ST)) as [J' [E [F' [S' [R' [V [W K]]]]]]].
  exists J'. split; [exact E|]. split; [repeat split; congruence|]. intros r c.
  rewrite (jac_mval J' r c R'), (jac_mval J r c RM). unfold get.
  destruct (Nat.eqb_spec r i) as [->|D]; [destruct (Nat.eqb_spec c j) as [->|D]|]; cbn [andb].
  - rewrite V. rewrite (jac_mval J i j RM). reflexivity.
  - rewrite W by congruence. destruct (sfind J (i, c)); symmetry; exact (Qcplus_0_r _).
  - rewrite W by congruence. destruct (sfind J (r, c)); symmetry; exact (Qcplus_0_r _).
Qed.
Lemma broyden_elems_ok n J (left dx : list Qc) : square n J -> length left = n -> length dx = n ->
  (forall i j, i < n -> j < n -> (vfun left i * vfun dx j <> 0)%Qc -> stored (sdat J) i j) ->
  exists J', broyden_elems (N:=QcNum) n left dx J = Ret J' /\ same_keys J J' /\
    forall i j, i < n -> j < n -> mval (sdat J') i j = (mval (sdat J) i j + vfun left i * vfun dx j)%Qc.
Proof.
  intros SQ LL LD ST. unfold broyden_elems.
  destruct (ofor_inv (fun i J' => same_keys J J' /\ forall r c, r < n -> c < n -> mval (sdat J') r c = (mval (sdat J) r c + (if r <? i then vfun left r * vfun dx c else 0))%Qc)
     0 n (fun i J => ofor 0 n (fun j J => l <- rdat left i ;; d <- rdat dx j ;;
      let x := nmul QcNum l d in
      if neqb QcNum x (n0 QcNum) then Ret J else at_upd J (i, j) (fun y => nadd QcNum y x)) J) J) as [J' [E [K V]]].
  - lia.
  - split; [apply same_keys_refl|]. intros r c _ _. cbn. ring.
  - intros i J1 Hi [K1 V1].
    destruct (ofor_inv (fun j J' => same_keys J J' /\ forall r c, r < n -> c < n -> mval (sdat J') r c =
        (mval (sdat J) r c + (if (r <? i) || (Nat.eqb r i && (c <? j)) then vfun left r * vfun dx c else 0))%Qc)
     0 n (fun j J => l <- rdat left i ;; d <- rdat dx j ;;
      let x := nmul QcNum l d in
      if neqb QcNum x (n0 QcNum) then Ret J else at_upd J (i, j) (fun y => nadd QcNum y x)) J1) as [J2 [E2 [K2 V2]]].
    + lia.
    + split; [exact K1|]. intros r c Hr Hc. rewrite (V1 r c Hr Hc). cbn [Nat.ltb Nat.leb]. rewrite andb_false_r, orb_false_r. reflexivity.
    + intros j J2 Hj [K2 V2].
      rewrite (rdat_ok left i 0%Qc) by (change (nT QcNum) with Qc in *; lia). cbn [obind].
      rewrite (rdat_ok dx j 0%Qc) by (change (nT QcNum) with Qc in *; lia). cbn [obind]. cbv zeta.
      fold (vfun left i). fold (vfun dx j).
      assert (SPL : forall r c, r < n -> c < n -> ((r <? i) || (Nat.eqb r i && (c <? S j))) = ((r <? i) || (Nat.eqb r i && (c <? j))) || (Nat.eqb r i && Nat.eqb c j)).
      { intros r c _ _. destruct (Nat.ltb_spec r i), (Nat.eqb_spec r i), (Nat.ltb_spec c (S j)), (Nat.ltb_spec c j), (Nat.eqb_spec c j); cbn; auto; lia. }
      destruct (neqb QcNum (nmul QcNum (vfun left i) (vfun dx j)) (n0 QcNum)) eqn:EZ.
      * exists J2. split; [reflexivity|]. split; [exact K2|]. intros r c Hr Hc. rewrite (V2 r c Hr Hc), (SPL r c Hr Hc).
        destruct ((r <? i) || (Nat.eqb r i && (c <? j))); [reflexivity|]. cbn [orb].
        destruct (Nat.eqb_spec r i) as [->|D]; [destruct (Nat.eqb_spec c j) as [->|D]|]; cbn [andb]; try reflexivity.
        apply Qceqb_eq in EZ. cbn in EZ. rewrite EZ. reflexivity.
      * assert (NZ : (vfun left i * vfun dx j <> 0)%Qc). { intros Z. apply (f_equal (fun q => Qceqb q 0)) in Z. rewrite Qceqb_refl in Z. unfold neqb in EZ. cbn in EZ. congruence. }
        assert (S2 : stored (sdat J2) i j). { apply (stored_keys (sdat J2) (sdat J) i j); [apply K2|]. apply ST; [lia|lia|exact NZ]. }
        destruct (at_upd_add n J2 i j (nmul QcNum (vfun left i) (vfun dx j)) (same_keys_square n J J2 SQ K2) S2) as [J3 [E3 [K3 V3]]].
        exists J3. split; [exact E3|]. split; [eapply same_keys_trans; eassumption|]. intros r c Hr Hc. rewrite V3, (V2 r c Hr Hc), (SPL r c Hr Hc).
        destruct (Nat.ltb_spec r i); cbn [orb].
        { destruct (Nat.eqb_spec r i); [lia|]. cbn. ring. }
        destruct (Nat.eqb_spec r i) as [->|D]; cbn [andb orb]; [|ring].
        destruct (Nat.ltb_spec c j); cbn [orb]. { destruct (Nat.eqb_spec c j); [lia|]. ring. }
        destruct (Nat.eqb_spec c j) as [->|D]; [|ring]. cbn [nmul QcNum]. ring.
    + exists J2. split; [exact E2|]. split; [exact K2|]. intros r c Hr Hc. rewrite (V2 r c Hr Hc).
      replace ((r <? i) || (Nat.eqb r i && (c <? n))) with (r <? S i); [reflexivity|].
      destruct (Nat.ltb_spec r i), (Nat.eqb_spec r i), (Nat.ltb_spec c n), (Nat.ltb_spec r (S i)); cbn; auto; lia.
  - exists J'. split; [exact E|]. split; [exact K|]. intros i j Hi Hj. rewrite (V i j Hi Hj).
    destruct (Nat.ltb_spec i n); [reflexivity|lia].
Qed.

(** ** The update of the stored elements *)
Lemma fake_data_ok n (left dx : list Qc) : length left = n -> length dx = n -> forall d : list (key * Qc),
  (forall r c, stored d r c -> r < n /\ c < n) ->
  exists d', fake_data (N:=QcNum) left dx d = Ret d' /\ map fst d' = map fst d /\
    forall r c, mval d' r c = (mval d r c + (if storedb d r c then vfun left r * vfun dx c else 0))%Qc.
Proof.
  intros LL LD. induction d as [|[[i j] v] d I]; intros ST.
  - exists []. split; [reflexivity|]. split; [reflexivity|]. intros r c. cbn. ring.
  - destruct I as [d' [E [K V]]]. { intros r c [w H]. apply ST. exists w. right. exact H. }
    destruct (ST i j) as [Hi Hj]. { exists v. left. reflexivity. }
    assert (R1 : rdat left i = Ret (vfun left i)) by (apply rdat_ok; lia). assert (R2 : rdat dx j = Ret (vfun dx j)) by (apply rdat_ok; lia).
    cbn [fake_data fst snd]. change (nT QcNum) with Qc in *. rewrite R1. cbn [obind]. rewrite R2. cbn [obind]. rewrite E. cbn [obind].
    eexists. split; [reflexivity|]. split; [cbn [map fst]; congruence|]. intros r c. cbn [mval storedb existsb fst snd].
    destruct (Nat.eqb_spec i r) as [->|D]; [destruct (Nat.eqb_spec j c) as [->|D]|]; cbn [andb orb]; [reflexivity| |]; apply V.
Qed.
Lemma storedb_spec e i j : storedb e i j = true <-> stored e i j.
Proof.
  unfold storedb. rewrite existsb_exists. split.
  - intros [[[r c] v] [H E]]. cbn in E. apply andb_true_iff in E. destruct E as [E1 E2]. apply Nat.eqb_eq in E1, E2. subst. exists v. exact H.
  - intros [v H]. exists ((i, j), v). split; [exact H|]. cbn. rewrite !Nat.eqb_refl. reflexivity.
Qed.
Lemma storedb_keys e e' i j : map fst e = map fst e' -> storedb e i j = storedb e' i j.
Proof.
  intros K. destruct (storedb e i j) eqn:A, (storedb e' i j) eqn:B; auto.
  - apply storedb_spec in A. apply (stored_keys _ _ i j K) in A. apply storedb_spec in A. congruence.
  - apply storedb_spec in B. apply (stored_keys _ _ i j K) in B. apply storedb_spec in B. congruence.
Qed.
Lemma fake_elems_ok n J (left dx : list Qc) : square n J -> length left = n -> length dx = n ->
  exists J', fake_elems (N:=QcNum) left dx J = Ret J' /\ same_keys J J' /\
    forall i j, mval (sdat J') i j = (mval (sdat J) i j + (if storedb (sdat J) i j then vfun left i * vfun dx j else 0))%Qc.
Proof.
  intros [F [SZ [RM ST]]] LL LD. unfold fake_elems. destruct (fake_data_ok n left dx LL LD (sdat J) ST) as [d' [E [K V]]].
  change (nT QcNum) with Qc in *. rewrite E. cbn [obind]. eexists. split; [reflexivity|]. split; [repeat split; cbn; auto|]. exact V.
Qed.
