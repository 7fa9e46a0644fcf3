(** RosFacts2.v - building the Jacobian, the matrix W and the cache of decompositions. *)
From Coq Require Import List Arith Bool Lia ZArith QArith Qcanon.
From Verif Require Import Base BaseFacts SMap SpModel SpSpec SpFacts SpFacts2 SpFacts3 SpFacts4 LUSpec LUModel LUFacts LUFacts2 LUFacts3 LUFacts5 RkModel RkSpec StepModel RosModel RosSpec NewtFacts RosFacts.
Import ListNotations.
Local Open Scope nat_scope.

(** the memory holds the Jacobian parts of one hard initialisation *)
Definition jspec (n2 n1 : nat) (f : Qc -> list Qc -> Outcome (list Qc)) (t : Qc) (x0 f0 : list Qc) (m : mems QcNum) : Prop :=
  (forall i j, sfind (obj m 0) (i, j) = if (i <? n2 + n1) && (j <? n1) then
     cand (cmp_ (value (f t (upd x0 (n2 + j) (cmp_ x0 (n2 + j) + jdx)%Qc))) (n2 + i)) (cmp_ f0 (n2 + i)) else None) /\
  (forall i j, sfind (obj m 1) (i, j) = if (i <? n2 + n1) && (j <? n2) then
     cand (cmp_ (value (f t (upd x0 j (cmp_ x0 j + jdx)%Qc))) (n2 + i)) (cmp_ f0 (n2 + i)) else None).

Lemma sfind_mkS (J : smat QcNum) p : row_major (sdat J) -> sfind (mkS true (ssz J) (sdat J)) p = sfind J p.
Proof.
  intros R. destruct (sfind J p) as [v|] eqn:E.
  - apply (has_mkS (mkS true (ssz J) (sdat J)) J p); auto.
  - destruct (sfind (mkS true (ssz J) (sdat J)) p) as [v|] eqn:E'; [|reflexivity].
    apply (has_mkS (mkS true (ssz J) (sdat J)) J p) in E'; auto. congruence.
Qed.
Lemma ros_build_ok f t (x0 f0 : list Qc) r : store_ok (ro_mats r) -> good_rhs (N:=QcNum) (2 * ro_n2 r + ro_n1 r) f ->
  length x0 = 2 * ro_n2 r + ro_n1 r -> length f0 = 2 * ro_n2 r + ro_n1 r ->
  exists m, ros_build f t x0 f0 r = (mkRos (ro_n2 r) (ro_n1 r) m [] None 0%Qc, Ret tt) /\ mats_ok (ro_n2 r) (ro_n1 r) m /\
    jspec (ro_n2 r) (ro_n1 r) f t x0 f0 m.
Proof.
  intros S G LX LF. unfold ros_build. set (n2 := ro_n2 r) in *. set (n1 := ro_n1 r) in *.
  destruct (ros_makeJ_ok n2 n1 f t x0 f0 n2 (n2 + n1) G LX LF) as (J1 & E1 & FA1 & SZ1 & R1 & V1 & Z1); [lia|lia|].
  rewrite E1. cbn [rfail].
  destruct (assign_mat (ro_mats r) J1 0 S R1) as (m1 & A1 & S1 & O1 & T1); [lia|]. rewrite A1. cbn [rfail].
  destruct (ros_makeJ_ok n2 n1 f t x0 f0 0 n2 G LX LF) as (J2 & E2 & FA2 & SZ2 & R2 & V2 & Z2); [lia|lia|].
  rewrite E2. cbn [rfail].
  destruct (assign_mat m1 J2 1 S1 R2) as (m2 & A2 & S2 & O2 & T2); [lia|]. rewrite A2. cbn [rfail].
  assert (Q0 : obj m2 0 = mkS true (ssz J1) (sdat J1)) by (rewrite T2 by lia; exact O1).
  assert (JS : jspec n2 n1 f t x0 f0 m2).
  { split; intros i j.
    - rewrite Q0, sfind_mkS by exact R1. destruct (Nat.ltb_spec i (n2 + n1)), (Nat.ltb_spec j n1); cbn [andb];
        first [apply V1; lia|apply Z1; lia].
    - rewrite O2, sfind_mkS by exact R2. destruct (Nat.ltb_spec i (n2 + n1)), (Nat.ltb_spec j n2); cbn [andb];
        first [apply V2; lia|apply Z2; lia]. }
  destruct (ros_stencil_ok m2 n2 n1 S2) as (m3 & E3 & S3 & P0 & P1 & Z3 & H3).
  { intros i j v H. rewrite (proj1 JS) in H. destruct (Nat.ltb_spec i (n2 + n1)), (Nat.ltb_spec j n1); cbn [andb] in H; try discriminate.
    split; [lia|]. split; [lia|]. eapply cand_nz; exact H. }
  { intros i j v H. rewrite (proj2 JS) in H. destruct (Nat.ltb_spec i (n2 + n1)), (Nat.ltb_spec j n2); cbn [andb] in H; try discriminate.
    split; [lia|]. split; [lia|]. eapply cand_nz; exact H. }
  rewrite E3. cbn [rfail]. exists m3. split; [reflexivity|]. split.
  - split; [exact S3|]. rewrite P0, P1, Q0, O2, Z3, SZ1, SZ2. cbn [ssz]. split; [reflexivity|]. split; [reflexivity|]. split; [reflexivity|].
    split; [|split].
    + intros i j v H. assert (H' : sfind (obj m2 0) (i, j) = Some v) by (rewrite Q0, SZ1; exact H).
      rewrite (proj1 JS) in H'. destruct (Nat.ltb_spec i (n2 + n1)), (Nat.ltb_spec j n1); cbn [andb] in H'; try discriminate.
      split; [lia|]. split; [lia|]. eapply cand_nz; exact H'.
    + intros i j v H. assert (H' : sfind (obj m2 1) (i, j) = Some v) by (rewrite O2, SZ2; exact H).
      rewrite (proj2 JS) in H'. destruct (Nat.ltb_spec i (n2 + n1)), (Nat.ltb_spec j n2); cbn [andb] in H'; try discriminate.
      split; [lia|]. split; [lia|]. eapply cand_nz; exact H'.
    + intros i j. rewrite H3, Q0, O2, SZ1, SZ2. tauto.
  - split; intros i j; [rewrite P0|rewrite P1]; apply JS.
Qed.

(** the elements of W for a value of h*d *)
Definition w_data (m : mems QcNum) (hd : Qc) : list ((nat * nat) * Qc) :=
  map (fun k => (k, wmat hd (fun i j => get (obj m 0) (i, j)) (fun i j => get (obj m 1) (i, j)) (fst k) (snd k))) (map fst (sdat (obj m 2))).
Lemma data_by_get (d : list (key * Qc)) (g : key -> Qc) : row_major (N:=QcNum) d -> (forall k x, In (k, x) d -> x = g k) -> d = map (fun k => (k, g k)) (map fst d).
Proof.
  intros _ H. induction d as [|[k x] d IH]; [reflexivity|]. cbn [map fst]. f_equal; [|apply IH; intros; apply H; right; assumption].
  f_equal. apply H. left; reflexivity.
Qed.
Lemma ros_W_ok n2 n1 m hd : mats_ok n2 n1 m ->
  exists m', ros_W hd m = Ret m' /\ mats_ok n2 n1 m' /\ obj m' 0 = obj m 0 /\ obj m' 1 = obj m 1 /\
    map fst (sdat (obj m' 2)) = map fst (sdat (obj m 2)) /\ sdat (obj m' 2) = w_data m hd.
Proof.
  intros MO. pose proof MO as (S & Z0 & Z1 & Z2 & P0 & P1 & P2). pose proof S as (L & OK & F0 & F1 & F2).
  unfold ros_W. set (z := makeZero (obj m 2)).
  assert (RZ : row_major (sdat z)) by (eapply row_major_keys; [symmetry; exact (proj1 (proj2 (makeZero_ok (obj m 2) (0, 0) (OK 2))))|apply OK]).
  assert (HZ : forall p, has z p <-> has (obj m 2) p).
  { intros p. destruct (makeZero_ok (N:=QcNum) (obj m 2) p (OK 2)) as (_ & _ & H & _). fold z in H. unfold hasIndex in H. unfold has.
    destruct (sfind z p) as [v|], (sfind (obj m 2) p) as [w|]; try discriminate; split; intros [y Q]; try discriminate; eauto. }
  destruct (addScaledIdentity_ok (N:=QcNum) z (1%Qc : nT QcNum) RZ) as (I3 & EI & FI & ZI & RI & GI & VI).
  { intros _ i Hi. apply has_In; [exact RZ|]. apply HZ. apply P2. change (fst (ssz z)) with (fst (ssz (obj m 2))) in Hi. rewrite Z2 in Hi. cbn [fst] in Hi. auto. }
  rewrite EI. cbn [obind].
  change (ssz z) with (ssz (obj m 2)) in ZI, GI, VI. rewrite Z2 in ZI, GI, VI. cbn [fst] in GI, VI.
  assert (GZ : forall p, get z p = 0%Qc) by (intros p; apply (makeZero_ok (N:=QcNum) (obj m 2) p (OK 2))).
  assert (GD : forall i j, i < n2 + n1 -> j < n2 + n1 -> get I3 (i, j) = delta i j).
  { intros i j Hi Hj. unfold delta. destruct (Nat.eqb_spec i j) as [->|D].
    - rewrite GI by exact Hi. rewrite GZ. cbn [nadd QcNum]. apply Qcplus_0_l.
    - unfold get. rewrite VI by (left; exact D). apply GZ. }
  assert (HI : forall p, has I3 p <-> has (obj m 2) p).
  { intros [i j]. rewrite <- HZ. destruct (Nat.eq_dec i j) as [->|D].
    - destruct (le_lt_dec (n2 + n1) j) as [Q|Q]; [unfold has; rewrite VI by lia; tauto|].
      split; intros _; [apply HZ, P2; auto|]. apply get_has. rewrite GD by exact Q. unfold delta. rewrite Nat.eqb_refl. intros H; discriminate.
    - unfold has. rewrite VI by (left; exact D). tauto. }
  assert (O2 : obj (upd m 2 I3) 2 = I3) by (rewrite obj_upd by lia; reflexivity).
  assert (OK1 : mems_ok (upd m 2 I3)).
  { intros j. rewrite obj_upd by lia. destruct (Nat.eqb j 2); [exact RI|apply OK]. }
  destruct (minus_scaled (upd m 2 I3) 2 0 hd OK1) as (m2 & E2 & OK2 & (L2 & OS2) & FA2 & SZ2 & K2 & V2).
  { rewrite upd_length. lia. } { rewrite O2, FI. exact F2. } { lia. }
  { intros [i j] H. rewrite O2. rewrite obj_upd_other in H by lia. apply HI, P2. destruct H as [v H]. destruct (P0 i j v H) as (? & ? & _). repeat split; auto. right. left. exists v; exact H. }
  rewrite E2. cbn [obind].
  rewrite O2 in V2, K2, SZ2. rewrite obj_upd_other in V2 by lia.
  assert (H2 : forall p, has (obj m2 2) p <-> has (obj m 2) p).
  { intros p. rewrite <- HI, !has_In by (apply OK2 || exact RI). split; intros [x Hx].
    - assert (Q : In p (map fst (sdat (obj m2 2)))) by (apply in_map_iff; exists (p, x); auto). rewrite K2 in Q. apply in_map_iff in Q as [[q y] [<- Q]]. eauto.
    - assert (Q : In p (map fst (sdat I3))) by (apply in_map_iff; exists (p, x); auto). rewrite <- K2 in Q. apply in_map_iff in Q as [[q y] [<- Q]]. eauto. }
  destruct (minus_scaled m2 2 1 (hd * hd)%Qc OK2) as (m3 & E3 & OK3 & (L3 & OS3) & FA3 & SZ3 & K3 & V3).
  { rewrite L2, upd_length. lia. } { exact FA2. } { lia. }
  { intros [i j] H. apply H2, P2. rewrite OS2, obj_upd_other in H by lia. destruct H as [v H]. destruct (P1 i j v H) as (? & ? & _). repeat split; auto; [lia|].
    right. right. exists v; exact H. }
  rewrite (OS2 1), obj_upd_other in V3 by lia.
  assert (B : forall j, j <> 2 -> obj m3 j = obj m j).
  { intros j D. rewrite OS3, OS2 by exact D. apply obj_upd_other. exact D. }
  assert (KI : map fst (sdat I3) = map fst (sdat (obj m 2))).
  { apply same_keys; [exact RI|apply OK|]. intros p. rewrite <- !has_In by (apply OK || exact RI). apply HI. }
  assert (K : map fst (sdat (obj m3 2)) = map fst (sdat (obj m 2))) by congruence.
  assert (H3 : forall p, has (obj m3 2) p <-> has (obj m 2) p).
  { intros p. rewrite !has_In by (apply OK3 || apply OK). split; intros [x Hx].
    - assert (Q : In p (map fst (sdat (obj m3 2)))) by (apply in_map_iff; exists (p, x); auto). rewrite K in Q. apply in_map_iff in Q as [[q y] [<- Q]]. eauto.
    - assert (Q : In p (map fst (sdat (obj m 2)))) by (apply in_map_iff; exists (p, x); auto). rewrite <- K in Q. apply in_map_iff in Q as [[q y] [<- Q]]. eauto. }
  exists m3. split; [exact E3|]. split.
  { split; [split; [rewrite L3, L2, upd_length; exact L|split; [exact OK3|rewrite !B by lia; auto]]|]. rewrite !B by lia.
    split; [exact Z0|]. split; [exact Z1|]. split; [rewrite SZ3, SZ2; exact ZI|]. split; [exact P0|]. split; [exact P1|].
    intros i j. rewrite H3. apply P2. }
  split; [apply B; lia|]. split; [apply B; lia|]. split; [exact K|].
  unfold w_data. rewrite <- K. apply data_by_get; [apply OK3|].
  intros [i j] x Hx. cbn [fst snd]. apply (proj2 (sfind_In (N:=QcNum) (obj m3 2) (i, j) x (OK3 2))) in Hx.
  assert (IJ : i < n2 + n1 /\ j < n2 + n1) by (assert (Q : has (obj m 2) (i, j)) by (apply H3; exists x; exact Hx); apply P2 in Q; tauto).
  assert (GX : get (obj m3 2) (i, j) = x) by (unfold get; rewrite Hx; reflexivity).
  rewrite <- GX, V3, V2, GD by tauto. unfold wmat.
  assert (Q : forall d a b h : Qc, (d - a * h - b * (h * h) = d - h * a - h * h * b)%Qc) by (intros; ring). exact (Q _ _ _ _).
Qed.

(** * the linear systems *)
Lemma stored_keys (d : list ((nat * nat) * Qc)) g i j : stored (map (fun k : nat * nat => (k, g k)) (map fst d)) i j <-> exists x, In ((i, j), x) d.
Proof.
  unfold stored. split; intros [x H].
  - apply in_map_iff in H as (k & E & H). injection E as -> _. apply in_map_iff in H as ([q y] & E & H). cbn [fst] in E. subst q. eauto.
  - exists (g (i, j)). apply in_map_iff. exists (i, j). split; [reflexivity|]. apply in_map_iff. exists ((i, j), x). auto.
Qed.
Section WData.
Variables (n2 n1 : nat) (m : mems QcNum) (hd : Qc).
Hypothesis MO : mats_ok n2 n1 m.
Let J1 i j : Qc := get (obj m 0) (i, j).
Let J2 i j : Qc := get (obj m 1) (i, j).
Let WD := w_data m hd.
Lemma w_stored i j : stored WD i j <-> i < n2 + n1 /\ j < n2 + n1 /\ (i = j \/ J1 i j <> 0%Qc \/ J2 i j <> 0%Qc).
Proof.
  pose proof MO as ((L & OK & _) & Z0 & Z1 & Z2 & P0 & P1 & P2). unfold WD, w_data. rewrite stored_keys.
  change (exists x, In ((i, j), x) (sdat (obj m 2))) with (exists x : nT QcNum, In ((i, j), x) (sdat (obj m 2))).
  rewrite <- has_In by apply OK. rewrite P2.
  assert (Q0 : has (obj m 0) (i, j) <-> J1 i j <> 0%Qc).
  { split; [|apply get_has]. intros [v H]. unfold J1, get. rewrite H. apply (P0 i j v H). }
  assert (Q1 : has (obj m 1) (i, j) <-> J2 i j <> 0%Qc).
  { split; [|apply get_has]. intros [v H]. unfold J2, get. rewrite H. apply (P1 i j v H). }
  rewrite Q0, Q1. tauto.
Qed.
Lemma w_distinct : distinct_keys WD.
Proof.
  pose proof MO as ((L & OK & _) & _). unfold distinct_keys, WD, w_data. rewrite map_map. cbn [fst]. rewrite map_id.
  rewrite <- siter_SW. apply siter_NoDup. exact OK.
Qed.
Lemma w_acceptable : acceptable WD (n2 + n1).
Proof.
  split; [intros r c H; apply w_stored in H; tauto|]. intros i Hi. split; exists i; (split; [apply w_stored; auto|lia]).
Qed.
Lemma w_mval i j : i < n2 + n1 -> j < n2 + n1 -> mval WD i j = wmat hd J1 J2 i j.
Proof.
  intros Hi Hj. destruct (stored_dec WD i j) as [S|NS].
  - destruct S as [v S]. rewrite (mval_In WD i j v w_distinct S). unfold WD, w_data in S. apply in_map_iff in S as ([a b] & E & _). injection E as -> -> <-. reflexivity.
  - rewrite (mval_notin WD i j NS). assert (Q : i <> j /\ J1 i j = 0%Qc /\ J2 i j = 0%Qc).
    { split; [intros ->; apply NS, w_stored; auto|]. split.
      - destruct (Qc_eq_dec (J1 i j) 0) as [E|E]; [exact E|]. destruct NS. apply w_stored. auto.
      - destruct (Qc_eq_dec (J2 i j) 0) as [E|E]; [exact E|]. destruct NS. apply w_stored. auto. }
    destruct Q as (D & E1 & E2). unfold wmat, delta. rewrite E1, E2. apply Nat.eqb_neq in D. rewrite D. ring.
Qed.
Lemma w_stencil_stored i j : stored (w_stencil (n2 + n1) J1 J2) i j <-> stored WD i j.
Proof.
  rewrite w_stored. unfold stored, w_stencil. split.
  - intros [v H]. apply in_flat_map in H as (a & Ha & H). apply in_flat_map in H as (b & Hb & H). apply in_seq in Ha, Hb.
    destruct ((a =? b) || negb (Qceqb (J1 a b) 0) || negb (Qceqb (J2 a b) 0)) eqn:E; [|destruct H].
    destruct H as [H|[]]. injection H as -> -> _. split; [lia|]. split; [lia|]. rewrite !orb_true_iff, Nat.eqb_eq, !negb_true_iff in E.
    destruct E as [[E|E]|E]; [auto|right; left; apply Qceqb_neq; exact E|right; right; apply Qceqb_neq; exact E].
  - intros (Hi & Hj & E). exists 0%Qc. apply in_flat_map. exists i. split; [apply in_seq; lia|]. apply in_flat_map. exists j. split; [apply in_seq; lia|].
    assert (B : (i =? j) || negb (Qceqb (J1 i j) 0) || negb (Qceqb (J2 i j) 0) = true).
    { rewrite !orb_true_iff, Nat.eqb_eq, !negb_true_iff. destruct E as [E|[E|E]]; [auto|left; right|right];
        destruct (Qceqb _ 0) eqn:Q; auto; apply Qceqb_eq in Q; contradiction. }
    rewrite B. left. reflexivity.
Qed.
Lemma w_set : exists s, setMatrix WD = Ret s.
Proof. destruct (setMatrix_ok WD (n2 + n1) w_distinct w_acceptable) as (s & E & _). eauto. Qed.
Lemma w_nonsing : leading_nonsingular (n2 + n1) (wmat hd J1 J2) -> leading_nonsingular (n2 + n1) (mval WD).
Proof.
  intros H k Hk x Hx. apply (H k Hk). intros r Hr. rewrite <- (Hx r Hr). apply qsum_ext. intros c Hc. rewrite w_mval by lia. reflexivity.
Qed.
Lemma w_fill : fill_covered (w_stencil (n2 + n1) J1 J2) (wmat hd J1 J2) (n2 + n1) <-> fill_covered WD (mval WD) (n2 + n1).
Proof.
  split; intros H L U HL HU HP r c Hrc Hs; (apply (H L U HL HU); [|exact Hrc|]).
  - intros a b Ha Hb. rewrite HP by assumption. apply w_mval; assumption.
  - intros c' Hc' S. apply (Hs c' Hc'). apply w_stencil_stored. exact S.
  - intros a b Ha Hb. rewrite HP by assumption. symmetry. apply w_mval; assumption.
  - intros c' Hc' S. apply (Hs c' Hc'). apply w_stencil_stored. exact S.
Qed.
Lemma w_solve s b : setMatrix WD = Ret s -> leading_nonsingular (n2 + n1) (wmat hd J1 J2) ->
  fill_covered (w_stencil (n2 + n1) J1 J2) (wmat hd J1 J2) (n2 + n1) -> length b = n2 + n1 ->
  exists s' x, solve s b = Ret (s', x) /\ length x = n2 + n1 /\ solves (n2 + n1) (wmat hd J1 J2) (vfun x) (vfun b).
Proof.
  intros HS NS FC LB. destruct (proj1 (lu_solve_iff WD (n2 + n1) s w_distinct w_acceptable HS (w_nonsing NS)) (proj1 w_fill FC) b LB) as (s' & x & E & LX & SO).
  exists s', x. split; [exact E|]. split; [exact LX|]. intros r Hr. rewrite <- (SO r Hr). apply qsum_ext. intros c Hc. rewrite w_mval by lia. reflexivity.
Qed.
End WData.

(** * the cache *)
Definition entry_ok (m : mems QcNum) (e : Qc * lu) : Prop :=
  exists s0, setMatrix (w_data m (fst e)) = Ret s0 /\ (snd e = s0 \/ factorize s0 = Ret (snd e)).
Definition ros_inv (r : ros) : Prop :=
  mats_ok (ro_n2 r) (ro_n1 r) (ro_mats r) /\ (forall e, In e (ro_cache r) -> entry_ok (ro_mats r) e) /\ length (ro_cache r) <= max_cache /\
  ((ro_lu r = None /\ ro_hd r = 0%Qc /\ ro_cache r = []) \/ (ro_lu r = Some (ro_hd r) /\ exists s, lookup (ro_hd r) (ro_cache r) = Some s)).

Lemma lookup_In k c s : lookup k c = Some s -> In (k, s) c.
Proof.
  induction c as [|[k' s'] c IH]; cbn [lookup]; [discriminate|]. destruct (Qceqb k' k) eqn:E; intros H.
  - apply Qceqb_eq in E. injection H as ->. subst. left; reflexivity.
  - right. auto.
Qed.
Lemma store_In k s c e : In e (store k s c) -> (e = (k, s) /\ exists s', In (k, s') c) \/ In e c.
Proof.
  unfold store. intros H. apply in_map_iff in H as ([k' s'] & E & H). cbn [fst] in E. destruct (Qceqb k' k) eqn:Q; subst e; [|auto].
  apply Qceqb_eq in Q. subst k'. left. eauto.
Qed.
Lemma lookup_store k s c s' : lookup k c = Some s' -> lookup k (store k s c) = Some s.
Proof.
  induction c as [|[k' t] c IH]; cbn [lookup store map fst]; [discriminate|]. destruct (Qceqb k' k) eqn:E; intros H; cbn [lookup fst]; rewrite E; [reflexivity|auto].
Qed.
Lemma store_length k s c : length (store k s c) = length c. Proof. apply map_length. Qed.
Lemma w_data_keys m m' hd : obj m' 0 = obj m 0 -> obj m' 1 = obj m 1 -> map fst (sdat (obj m' 2)) = map fst (sdat (obj m 2)) -> w_data m' hd = w_data m hd.
Proof. intros A B C. unfold w_data. rewrite A, B, C. reflexivity. Qed.
Lemma entry_keys m m' e : obj m' 0 = obj m 0 -> obj m' 1 = obj m 1 -> map fst (sdat (obj m' 2)) = map fst (sdat (obj m 2)) -> entry_ok m e -> entry_ok m' e.
Proof. intros A B C (s0 & E & H). exists s0. rewrite (w_data_keys m m' (fst e) A B C). auto. Qed.
Lemma factorize_idem s s' : factorize s = Ret s' -> factorize s' = Ret s'.
Proof.
  unfold factorize. destruct (ufact s) eqn:U.
  - intros E. injection E as <-. rewrite U. reflexivity.
  - intros E. binv E. injection E as <-. reflexivity.
Qed.
Lemma solve_entry m e s0 b : setMatrix (w_data m (fst e)) = Ret s0 -> (snd e = s0 \/ factorize s0 = Ret (snd e)) -> solve (snd e) b = solve s0 b.
Proof.
  intros _ [->|H]; [reflexivity|]. unfold solve. rewrite (factorize_idem _ _ H), H. reflexivity.
Qed.
Lemma solve_factorizes s b q : solve s b = Ret q -> factorize s = Ret (fst q).
Proof.
  unfold solve. intros E. destruct (factorize s) as [st1| |] eqn:F; cbn [obind] in E; try discriminate.
  binv E. binv E. injection E as <-. reflexivity.
Qed.

(** what init does to the values the decompositions are made from *)
Definition same_J (m m' : mems QcNum) : Prop := obj m' 0 = obj m 0 /\ obj m' 1 = obj m 1 /\ map fst (sdat (obj m' 2)) = map fst (sdat (obj m 2)).
Lemma same_J_refl m : same_J m m. Proof. repeat split. Qed.
Lemma ros_update_ok hd r : ros_inv r -> exists r', ros_update hd r = (r', Ret tt) /\ ros_inv r' /\ ro_n2 r' = ro_n2 r /\ ro_n1 r' = ro_n1 r /\
  same_J (ro_mats r) (ro_mats r') /\ ro_hd r' = hd /\ (hd <> 0%Qc -> ro_lu r' = Some hd).
Proof.
  intros (MO & CO & LC & PT). unfold ros_update. destruct (Qceqb (ro_hd r) hd) eqn:E.
  - apply Qceqb_eq in E. exists r. split; [reflexivity|]. split; [exact (conj MO (conj CO (conj LC PT)))|]. repeat split; auto.
    intros NZ. destruct PT as [(A & B & C)|[A _]]; congruence.
  - destruct (lookup hd (ro_cache r)) as [s|] eqn:LK.
    + eexists. split; [reflexivity|]. split; [|repeat split; auto]. unfold ros_inv. cbn [ro_n2 ro_n1 ro_mats ro_cache ro_lu ro_hd].
      split; [exact MO|]. split; [exact CO|]. split; [exact LC|]. right. eauto.
    + destruct (ros_W_ok _ _ _ hd MO) as (m' & EW & MO' & O0 & O1 & K & D). rewrite EW. cbn [rfail].
      rewrite D. destruct (w_set _ _ _ hd MO) as (s & ES). rewrite ES. cbn [rfail].
      eexists. split; [reflexivity|]. split; [|repeat split; auto]. unfold ros_inv. cbn [ro_n2 ro_n1 ro_mats ro_cache ro_lu ro_hd].
      split; [exact MO'|]. split.
      { intros e [<-|H].
        - exists s. cbn [fst snd]. rewrite (w_data_keys (ro_mats r) m' hd O0 O1 K). auto.
        - apply (entry_keys (ro_mats r) m' e O0 O1 K). apply CO. destruct (max_cache <=? length (ro_cache r)); [destruct H|exact H]. }
      split.
      { cbn [length]. destruct (Nat.leb_spec max_cache (length (ro_cache r))); cbn [length]; [unfold max_cache; lia|lia]. }
      right. split; [reflexivity|]. exists s. cbn [lookup]. rewrite Qceqb_refl. reflexivity.
Qed.
Lemma inv_uncached r : ros_inv r -> ros_inv (uncached r).
Proof.
  intros (MO & _). split; [exact MO|]. split; [intros e []|]. split; [cbn; lia|]. left. auto.
Qed.
