(** RosFacts.v - the matrices of the Rosenbrock solvers. *)
From Coq Require Import List Arith Bool Lia ZArith QArith Qcanon.
From Verif Require Import Base BaseFacts SMap SpModel SpSpec SpFacts SpFacts2 SpFacts3 SpFacts4 LUSpec LUModel RkModel RkSpec StepModel RosModel RosSpec NewtFacts.
Import ListNotations.
Local Open Scope nat_scope.

Lemma jdx_nz : jdx <> 0%Qc. Proof. unfold jdx. intros E. discriminate. Qed.
Definition cand (a b : Qc) : option Qc := if Qceqb (a - b) 0 then None else Some ((a - b) / jdx)%Qc.
Lemma cand_get a b : match cand a b with Some v => v | None => 0%Qc end = ((a - b) / jdx)%Qc.
Proof.
  unfold cand. destruct (Qceqb (a - b) 0) eqn:E; [|reflexivity]. apply Qceqb_eq in E. rewrite E. reflexivity.
Qed.
Lemma cand_nz a b v : cand a b = Some v -> v <> 0%Qc.
Proof.
  unfold cand. destruct (Qceqb (a - b) 0) eqn:E; intros H; [discriminate|]. injection H as <-. apply Qceqb_neq in E. intros Z. apply E.
  replace (a - b)%Qc with ((a - b) / jdx * jdx)%Qc by (field; exact jdx_nz). rewrite Z. ring.
Qed.

Lemma ros_column_ok n2 n (f f0 : list Qc) col (J : smat QcNum) : n2 <= n -> fast J = false -> row_major (sdat J) -> n <= length f -> n <= length f0 ->
  (forall j, sfind J (j, col) = None) ->
  exists J', ros_column n2 n f f0 col J = Ret J' /\ fast J' = false /\ ssz J' = ssz J /\ row_major (sdat J') /\
   (forall j, n2 + j < n -> sfind J' (j, col) = cand (cmp_ f (n2 + j)) (cmp_ f0 (n2 + j))) /\
   (forall j, n <= n2 + j -> sfind J' (j, col) = None) /\
   (forall p, snd p <> col -> sfind J' p = sfind J p).
Proof.
  intros LE FA RM Lf L0 NO. unfold ros_column.
  destruct (ofor_inv (fun k (J' : smat QcNum) => fast J' = false /\ ssz J' = ssz J /\ row_major (sdat J') /\
     (forall j, n2 + j < k -> sfind J' (j, col) = cand (cmp_ f (n2 + j)) (cmp_ f0 (n2 + j))) /\
     (forall j, k <= n2 + j -> sfind J' (j, col) = None) /\ (forall p, snd p <> col -> sfind J' p = sfind J p)) n2 n
     (fun j (J : smat QcNum) => a <- rdat f j ;; b <- rdat f0 j ;;
    if Qceqb (a - b)%Qc 0%Qc then Ret J else at_upd J (j - n2, col) (fun _ => ((a - b) / jdx)%Qc)) J) as [J' [E P]].
  - lia.
  - repeat split; auto. intros; lia.
  - intros k r Hk [A [B [C [D [F G]]]]]. rewrite (rdat_ok _ _ 0%Qc) by lia. cbn [obind]. rewrite (rdat_ok _ _ 0%Qc) by lia. cbn [obind].
    fold (cmp_ f k). fold (cmp_ f0 k). destruct (Qceqb (cmp_ f k - cmp_ f0 k) 0) eqn:Z.
    + eexists. split; [reflexivity|]. repeat split; auto.
      * intros j Hj. destruct (Nat.eq_dec (n2 + j) k) as [Q|]; [unfold cand; rewrite Q, Z; apply F; lia|apply D; lia].
      * intros j Hj. apply F. lia.
    + destruct (at_upd_map (N:=QcNum) r (k - n2, col) (fun _ => ((cmp_ f k - cmp_ f0 k) / jdx)%Qc) A C) as [r' [E [A' [B' [C' [D' F']]]]]].
      exists r'. split; [exact E|]. repeat split; auto; try congruence.
      * intros j Hj. destruct (Nat.eq_dec (n2 + j) k) as [Q|Dj]; [unfold cand; rewrite Q, Z; replace j with (k - n2) by lia; exact D'|].
        rewrite F' by (intros Q; injection Q; lia). apply D; lia.
      * intros j Hj. rewrite F' by (intros Q; injection Q; lia). apply F; lia.
      * intros p Hp. rewrite F' by (intros ->; apply Hp; reflexivity). auto.
  - exists J'. split; [exact E|]. destruct P as [A [B [C [D [F G]]]]]. repeat split; auto.
Qed.

Lemma good_value n f t (x : list Qc) : good_rhs (N:=QcNum) n f -> length x = n -> f t x = Ret (value (f t x)) /\ length (value (f t x)) = n.
Proof. intros G L. destruct (G t x L) as (v & E & LV). rewrite E. split; [reflexivity|exact LV]. Qed.

Lemma ros_makeJ_ok n2 n1 f t (x0 f0 : list Qc) is ie : good_rhs (N:=QcNum) (2 * n2 + n1) f -> length x0 = 2 * n2 + n1 -> length f0 = 2 * n2 + n1 ->
  is <= ie -> ie <= 2 * n2 + n1 ->
  exists J, ros_makeJ n2 n1 f t x0 f0 is ie = Ret J /\ fast J = false /\ ssz J = (n2 + n1, n2 + n1) /\ row_major (sdat J) /\
   (forall j c, j < n2 + n1 -> c < ie - is -> sfind J (j, c) = cand (cmp_ (value (f t (upd x0 (is + c) (cmp_ x0 (is + c) + jdx)%Qc))) (n2 + j)) (cmp_ f0 (n2 + j))) /\
   (forall j c, n2 + n1 <= j \/ ie - is <= c -> sfind J (j, c) = None).
Proof.
  intros G L0 LF0 LE LI. unfold ros_makeJ.
  destruct (ofor_inv (fun k (xJ : list Qc * smat QcNum) => fst xJ = x0 /\ fast (snd xJ) = false /\ ssz (snd xJ) = (n2 + n1, n2 + n1) /\ row_major (sdat (snd xJ)) /\
   (forall j c, j < n2 + n1 -> is + c < k -> sfind (snd xJ) (j, c) = cand (cmp_ (value (f t (upd x0 (is + c) (cmp_ x0 (is + c) + jdx)%Qc))) (n2 + j)) (cmp_ f0 (n2 + j))) /\
   (forall j c, n2 + n1 <= j \/ k <= is + c -> sfind (snd xJ) (j, c) = None)) is ie
    (fun i xJ =>
         a <- rdat (fst xJ) i ;; x1 <- wrat (fst xJ) i (a + jdx)%Qc ;;
         fv <- f t x1 ;;
         b <- rdat x0 i ;; x2 <- wrat x1 i b ;;
         J <- ros_column n2 (2 * n2 + n1) fv f0 (i - is) (snd xJ) ;;
         Ret (x2, J)) (x0, new_map (N:=QcNum) (n2 + n1, n2 + n1))) as [[x' J] [E P]].
  - exact LE.
  - cbn [fst snd]. repeat split; auto. intros; lia.
  - intros k [x' J] Hk [A [B [C [D [F H]]]]]. cbn [fst snd] in *. subst x'. rewrite (rdat_ok _ _ 0%Qc) by lia. cbn [obind].
    rewrite wrat_ok by lia. cbn [obind]. fold (cmp_ x0 k).
    destruct (good_value (2 * n2 + n1) f t (upd x0 k (cmp_ x0 k + jdx)%Qc) G) as [E1 L1]; [rewrite upd_length; exact L0|].
    rewrite E1. cbn [obind]. rewrite (wrat_ok (upd x0 k (cmp_ x0 k + jdx)%Qc)) by (rewrite upd_length; lia). cbn [obind].
    destruct (ros_column_ok n2 (2 * n2 + n1) (value (f t (upd x0 k (cmp_ x0 k + jdx)%Qc))) f0 (k - is) J) as [J' [E' [A' [B' [C' [D' [F' G']]]]]]];
      [lia|exact B|exact D|lia|lia|intros j; apply H; lia|].
    rewrite E'. cbn [obind]. eexists. split; [reflexivity|]. cbn [fst snd]. split.
    { apply (list_ext 0%Qc); [rewrite !upd_length; reflexivity|]. intros i Hi. rewrite !upd_length in Hi. destruct (Nat.eq_dec i k) as [->|Q].
      - rewrite nth_upd_eq by (rewrite upd_length; exact Hi). reflexivity.
      - rewrite !nth_upd_neq by exact Q. reflexivity. }
    split; [exact A'|]. split; [congruence|]. split; [exact C'|]. split.
    + intros j c Hj Hc. destruct (Nat.eq_dec (is + c) k) as [Q|Q].
      * rewrite Q. replace c with (k - is) by lia. apply D'. lia.
      * rewrite G' by (cbn [snd]; lia). apply F; lia.
    + intros j c Hc. destruct (Nat.eq_dec c (k - is)) as [->|Q].
      * apply F'. lia.
      * rewrite G' by (cbn [snd]; lia). apply H. lia.
  - match goal with |- context[obind ?o _] => assert (E' : o = Ret (x', J)) by exact E; rewrite E' end. cbn [obind snd]. cbn [fst snd] in P. destruct P as [_ [B [C [D [F H]]]]]. exists J. split; [reflexivity|].
    split; [exact B|]. split; [exact C|]. split; [exact D|]. split; intros; [apply F; lia|apply H; lia].
Qed.

(** two sorted lists with the same keys *)
Lemma before_irrefl k : ~ before k k. Proof. unfold before. lia. Qed.
Lemma same_keys (d d' : list (key * Qc)) : row_major (N:=QcNum) d -> row_major (N:=QcNum) d' ->
  (forall p, (exists x, In (p, x) d) <-> (exists x, In (p, x) d')) -> map fst d = map fst d'.
Proof.
  revert d'. induction d as [|[k x] d IH]; intros [|[k' x'] d'] R R' H.
  - reflexivity.
  - destruct (proj2 (H k') (ex_intro _ x' (or_introl eq_refl))) as [? []].
  - destruct (proj1 (H k) (ex_intro _ x (or_introl eq_refl))) as [? []].
  - cbn [row_major] in R, R'. destruct R as [R1 R2], R' as [R1' R2'].
    assert (K : k = k').
    { destruct (proj1 (H k) (ex_intro _ x (or_introl eq_refl))) as [y [Q|Q]]; [congruence|].
      destruct (proj2 (H k') (ex_intro _ x' (or_introl eq_refl))) as [y' [Q'|Q']]; [congruence|].
      pose proof (R1 _ _ Q') as B1. pose proof (R1' _ _ Q) as B2. unfold before in *. lia. }
    subst k'. cbn [map fst]. f_equal. apply IH; [exact R2|exact R2'|]. intros p. split; intros [y Hy].
    + destruct (proj1 (H p) (ex_intro _ y (or_intror Hy))) as [z [Q|Q]]; [|eauto]. injection Q as -> _. destruct (before_irrefl p). exact (R1 _ _ Hy).
    + destruct (proj2 (H p) (ex_intro _ y (or_intror Hy))) as [z [Q|Q]]; [|eauto]. injection Q as -> _. destruct (before_irrefl p). exact (R1' _ _ Hy).
Qed.

Definition has (a : smat QcNum) (p : key) : Prop := exists v, sfind a p = Some v.
Lemma has_In (a : smat QcNum) p : row_major (sdat a) -> (has a p <-> exists x, In (p, x) (sdat a)).
Proof. intros R. split; intros [x H]; exists x; [apply sfind_In in H|apply sfind_In]; auto. Qed.
Lemma get_has (a : smat QcNum) p : get a p <> 0%Qc -> has a p.
Proof. unfold get, has. destruct (sfind a p); [eauto|]. intros H. destruct (H eq_refl). Qed.

Lemma minus_scaled m id src k : mems_ok (N:=QcNum) m -> id < length m -> fast (obj m id) = true -> src <> id ->
  (forall p, has (obj m src) p -> has (obj m id) p) ->
  exists m', mret (sminuseq (fuel_for m src) m (SW (N:=QcNum) id) (SSc (SW (N:=QcNum) src) (k : nT QcNum))) = Ret m' /\ mems_ok m' /\ others_same m m' id /\
    fast (obj m' id) = true /\ ssz (obj m' id) = ssz (obj m id) /\ map fst (sdat (obj m' id)) = map fst (sdat (obj m id)) /\
    forall p, get (obj m' id) p = (get (obj m id) p - get (obj m src) p * k)%Qc.
Proof.
  intros OK B FA D PT. unfold sminuseq.
  set (e := SSc (SW (N:=QcNum) src) (k : nT QcNum)).
  assert (EL : forall p x, In (p, x) (siter m e) <-> exists y : Qc, sfind (obj m src) p = Some y /\ x = (y * k)%Qc).
  { intros p x. rewrite siter_In by exact OK. cbn [presents e to_base sbase sscale nmul QcNum]. split; [intros [_ H]; exact H|intros H; split; [exact I|exact H]]. }
  assert (RF := rfor_fold (N:=QcNum) e (fun p x m => sat_upd m (SW id) p (fun y => nsub QcNum y x)) m (fuel_for m src)).
  destruct (sfold_upd (N:=QcNum) (nsub QcNum) (siter m e) m (SW id) OK B (siter_NoDup m e OK)) as [m' [R [OK' [OS [FA' [SZ [V1 V2]]]]]]].
  { intros _ p x Hp. apply EL in Hp as (y & Hy & _). cbn [sbase to_base]. apply has_In; [apply OK|]. apply PT. exists y; exact Hy. }
  cbn [sbase to_base] in *.
  exists m'. split.
  { rewrite RF.
    - rewrite R. reflexivity.
    - intros p x m0. apply (sat_upd_other (N:=QcNum) m0 (SW id)). exact D.
    - apply OK.
    - unfold fuel_for, e. cbn [sbase]. lia. }
  split; [exact OK'|]. split; [exact OS|]. split; [congruence|]. split; [exact SZ|]. split.
  - apply same_keys; [apply OK'|apply OK|]. intros p. rewrite <- !has_In by (apply OK' || apply OK).
    destruct (sfind (obj m src) p) as [y|] eqn:F.
    + pose proof (V1 p (y * k)%Qc (proj2 (EL p _) (ex_intro _ y (conj F eq_refl)))) as H. split; intros _; [apply PT; exists y; exact F|eexists; exact H].
    + assert (H : sfind (obj m' id) p = sfind (obj m id) p).
      { apply V2. intros q x I -> . apply EL in I as (y & Hy & _). congruence. }
      unfold has. rewrite H. tauto.
  - intros p. unfold get at 1 3. destruct (sfind (obj m src) p) as [y|] eqn:F.
    + rewrite (V1 p (y * k)%Qc (proj2 (EL p _) (ex_intro _ y (conj F eq_refl)))). reflexivity.
    + rewrite V2; [|intros q x I -> ; apply EL in I as (y & Hy & _); congruence]. fold (get (obj m id) p).
      assert (Q : forall a b : Qc, a = (a - 0 * b)%Qc) by (intros; ring). exact (Q _ _).
Qed.
Lemma plus_pattern m id src : mems_ok (N:=QcNum) m -> id < length m -> fast (obj m id) = false -> src <> id ->
  exists m', mret (spluseq (fuel_for m src) m (SW (N:=QcNum) id) (SW (N:=QcNum) src)) = Ret m' /\ mems_ok m' /\ others_same m m' id /\
    fast (obj m' id) = false /\ ssz (obj m' id) = ssz (obj m id) /\
    forall p, has (obj m' id) p <-> has (obj m id) p \/ has (obj m src) p.
Proof.
  intros OK B FA D. unfold spluseq.
  set (e := SW (N:=QcNum) src).
  assert (EL : forall p x, In (p, x) (siter m e) <-> sfind (obj m src) p = Some x).
  { intros p x. rewrite siter_In by exact OK. cbn [presents e to_base sbase sscale]. split; [intros [_ (y & H & ->)]; exact H|intros H; split; [exact I|exists x; auto]]. }
  assert (RF := rfor_fold (N:=QcNum) e (fun p x m => sat_upd m (SW id) p (fun y => nadd QcNum y x)) m (fuel_for m src)).
  destruct (sfold_upd (N:=QcNum) (nadd QcNum) (siter m e) m (SW id) OK B (siter_NoDup m e OK)) as [m' [R [OK' [OS [FA' [SZ [V1 V2]]]]]]].
  { cbn [sbase]. congruence. }
  cbn [sbase to_base] in *.
  exists m'. split.
  { rewrite RF.
    - rewrite R. reflexivity.
    - intros p x m0. apply (sat_upd_other (N:=QcNum) m0 (SW id)). exact D.
    - apply OK.
    - unfold fuel_for, e. cbn [sbase]. lia. }
  split; [exact OK'|]. split; [exact OS|]. split; [congruence|]. split; [exact SZ|].
  intros p. destruct (sfind (obj m src) p) as [y|] eqn:F.
  - pose proof (V1 p y (proj2 (EL p _) F)) as H. split; intros _; [right; exists y; exact F|eexists; exact H].
  - assert (H : sfind (obj m' id) p = sfind (obj m id) p).
    { apply V2. intros q x I -> . apply EL in I. congruence. }
    unfold has at 1 2. rewrite H. split; [auto|]. intros [Q|[y Q]]; [exact Q|congruence].
Qed.

(** the storage of the solver: four objects, the first three with array storage *)
Definition store_ok (m : mems QcNum) : Prop :=
  length m = 4 /\ mems_ok m /\ fast (obj m 0) = true /\ fast (obj m 1) = true /\ fast (obj m 2) = true.
(** the stored Jacobian parts and the pattern of m_W *)
Definition mats_ok (n2 n1 : nat) (m : mems QcNum) : Prop :=
  store_ok m /\ ssz (obj m 0) = (n2 + n1, n2 + n1) /\ ssz (obj m 1) = (n2 + n1, n2 + n1) /\ ssz (obj m 2) = (n2 + n1, n2 + n1) /\
  (forall i j v, sfind (obj m 0) (i, j) = Some v -> i < n2 + n1 /\ j < n2 + n1 /\ v <> 0%Qc) /\
  (forall i j v, sfind (obj m 1) (i, j) = Some v -> i < n2 + n1 /\ j < n2 /\ v <> 0%Qc) /\
  (forall i j, has (obj m 2) (i, j) <-> i < n2 + n1 /\ j < n2 + n1 /\ (i = j \/ has (obj m 0) (i, j) \/ has (obj m 1) (i, j))).

Lemma store_ok_new : store_ok (ro_mats ros_new).
Proof.
  split; [reflexivity|]. split; [|auto]. intros [|[|[|[|id]]]]; try exact I. unfold obj. cbn. destruct id; exact I.
Qed.
Lemma assign_mat m (J : smat QcNum) id : store_ok m -> row_major (sdat J) -> id < 3 ->
  exists m', mret (sassign 1 (upd m 3 J) id (SW (N:=QcNum) 3)) = Ret m' /\ store_ok m' /\ obj m' id = mkS true (ssz J) (sdat J) /\
    forall j, j <> id -> j <> 3 -> obj m' j = obj m j.
Proof.
  intros (L & OK & F0 & F1 & F2) R H.
  assert (OK1 : mems_ok (upd m 3 J)).
  { intros j. rewrite obj_upd by lia. destruct (Nat.eqb j 3); [exact R|apply OK]. }
  assert (FI : fast (obj (upd m 3 J) id) = true).
  { rewrite obj_upd by lia. destruct (Nat.eqb_spec id 3) as [->|_]; [lia|]. destruct id as [|[|[|id]]]; auto; lia. }
  destruct (assign_fast (N:=QcNum) (upd m 3 J) id (SW 3) 1 OK1) as [m' [E [[LO OS] O]]]; [rewrite upd_length; lia|exact FI|].
  assert (O3 : obj (upd m 3 J) 3 = J) by (rewrite obj_upd by lia; reflexivity).
  cbn [ssize] in O. rewrite siter_SW, O3 in O.
  exists m'. split; [unfold mret; rewrite E; reflexivity|]. split.
  - split; [rewrite LO, upd_length; exact L|]. split.
    + intros j. destruct (Nat.eq_dec j id) as [->|D]; [rewrite O; exact R|rewrite OS by exact D; apply OK1].
    + assert (FO : forall j, j < 3 -> fast (obj m' j) = true).
      { intros j Hj. destruct (Nat.eq_dec j id) as [->|D]; [rewrite O; reflexivity|]. rewrite OS by exact D. rewrite obj_upd by lia.
        destruct (Nat.eqb_spec j 3) as [->|_]; [lia|]. destruct j as [|[|[|j]]]; auto; lia. }
      repeat split; apply FO; lia.
  - split; [exact O|]. intros j D1 D3. rewrite OS by exact D1. apply obj_upd_other. exact D3.
Qed.
Lemma has_mkS (a b : smat QcNum) p : row_major (sdat a) -> row_major (sdat b) -> sdat a = sdat b -> forall v, sfind a p = Some v <-> sfind b p = Some v.
Proof. intros A B E v. rewrite !sfind_In by assumption. rewrite E. tauto. Qed.

Lemma ros_stencil_ok m n2 n1 : store_ok m ->
  (forall i j v, sfind (obj m 0) (i, j) = Some v -> i < n2 + n1 /\ j < n2 + n1 /\ v <> 0%Qc) ->
  (forall i j v, sfind (obj m 1) (i, j) = Some v -> i < n2 + n1 /\ j < n2 /\ v <> 0%Qc) ->
  exists m', ros_stencil m (n2 + n1) = Ret m' /\ store_ok m' /\ obj m' 0 = obj m 0 /\ obj m' 1 = obj m 1 /\ ssz (obj m' 2) = (n2 + n1, n2 + n1) /\
   (forall i j, has (obj m' 2) (i, j) <-> i < n2 + n1 /\ j < n2 + n1 /\ (i = j \/ has (obj m 0) (i, j) \/ has (obj m 1) (i, j))).
Proof.
  intros S P0 P1. pose proof S as (L & OK & F0 & F1 & F2). unfold ros_stencil.
  destruct (addScaledIdentity_ok (N:=QcNum) (new_map (n2 + n1, n2 + n1)) (1%Qc : nT QcNum)) as [I3 [EI [FI [ZI [RI [GI VI]]]]]]; [exact I|discriminate|].
  rewrite EI. cbn [obind ssz new_map] in *.
  assert (HI : forall i j, has I3 (i, j) <-> i = j /\ i < n2 + n1).
  { intros i j. destruct (Nat.eq_dec i j) as [->|D].
    - destruct (le_lt_dec (n2 + n1) j) as [Q|Q].
      + unfold has. rewrite VI by (cbn [fst]; lia). split; [intros [v H]; discriminate|lia].
      + split; [auto|]. intros _. apply get_has. rewrite GI by exact Q. cbn. intros H; discriminate.
    - unfold has. rewrite VI by (left; exact D). split; [intros [v H]; discriminate|tauto]. }
  assert (O3 : obj (upd m 3 I3) 3 = I3) by (rewrite obj_upd by lia; reflexivity).
  assert (OK1 : mems_ok (upd m 3 I3)).
  { intros j. rewrite obj_upd by lia. destruct (Nat.eqb j 3); [exact RI|apply OK]. }
  destruct (plus_pattern (upd m 3 I3) 3 0 OK1) as [m2 [E2 [OK2 [[L2 OS2] [FA2 [SZ2 H2]]]]]]; [rewrite upd_length; lia|rewrite O3; exact FI|lia|].
  rewrite E2. cbn [obind].
  destruct (plus_pattern m2 3 1 OK2) as [m3 [E3 [OK3 [[L3 OS3] [FA3 [SZ3 H3]]]]]]; [rewrite L2, upd_length; lia|exact FA2|lia|].
  rewrite E3. cbn [obind].
  assert (B3 : forall j, j <> 3 -> obj m3 j = obj m j).
  { intros j D. rewrite OS3, OS2 by exact D. apply obj_upd_other. exact D. }
  assert (LM3 : length m3 = 4) by (rewrite L3, L2, upd_length; exact L).
  destruct (assign_fast (N:=QcNum) m3 2 (SW 3) 1 OK3) as [m4 [E4 [[L4 OS4] O4]]]; [lia|rewrite B3 by lia; exact F2|].
  cbn [ssize] in O4. rewrite siter_SW in O4.
  assert (R4 : row_major (sdat (obj m3 3))) by apply OK3.
  exists m4. split; [unfold mret; rewrite E4; reflexivity|]. split; [|split; [|split; [|split]]].
  - split; [rewrite L4; exact LM3|]. split.
    + intros j. destruct (Nat.eq_dec j 2) as [->|D]; [rewrite O4; exact R4|rewrite OS4 by exact D; apply OK3].
    + rewrite !OS4, O4, !B3 by lia. auto.
  - rewrite OS4, B3 by lia. reflexivity.
  - rewrite OS4, B3 by lia. reflexivity.
  - rewrite O4. cbn [ssz]. rewrite SZ3, SZ2, O3. exact ZI.
  - intros i j. assert (Q : has (obj m4 2) (i, j) <-> has (obj m3 3) (i, j)).
    { unfold has. rewrite O4. split; intros [v Hv]; exists v; apply (has_mkS (mkS true (ssz (obj m3 3)) (sdat (obj m3 3))) (obj m3 3) (i, j)); auto. }
    rewrite Q, H3, H2, O3, HI. rewrite (OS2 1) by lia. rewrite !obj_upd_other by lia.
    split.
    + intros [[[-> Hi]|[v Hv]]|[v Hv]].
      * auto.
      * destruct (P0 i j v Hv) as (? & ? & _). repeat split; auto. right. left. exists v; exact Hv.
      * destruct (P1 i j v Hv) as (? & ? & _). repeat split; auto; [lia|]. right. right. exists v; exact Hv.
    + intros (Hi & Hj & [->|[H|H]]); auto.
Qed.
