(** LUFacts3.v - factorize, solve, elementAt, luToMatrix, setMatrixFast. *)
From Coq Require Import List Arith Lia ZArith QArith Qcanon Bool.
Require Import Verif.Base Verif.BaseFacts Verif.LUModel Verif.LUSpec Verif.LUFacts Verif.LUFacts2.
Import ListNotations.

Definition Lof (st : lu) : nat -> nat -> Qc := withdiag (AL (ulay st) (ul st)).
Definition Uof (st : lu) : nat -> nat -> Qc := AU (ulay st) (uu st).

(** storage is well-formed *)
Definition wf (st : lu) (n : nat) : Prop :=
  valid_layout (ulay st) n /\ lenL (ulay st) n (ul st) /\ lenU (ulay st) n (uu st).

(** the object is factorized and its factors multiply to A *)
Definition decomposed (st : lu) (n : nat) (A : nat -> nat -> Qc) : Prop :=
  wf st n /\ ufact st = true /\ is_product n (Lof st) (Uof st) A.

(** the object represents the matrix A *)
Definition represents (st : lu) (n : nat) (A : nat -> nat -> Qc) : Prop := holds st n A \/ decomposed st n A.

Lemma AL_zero y l r c : (r <= c)%nat -> AL y l r c = 0%Qc.
Proof. intro. apply AL_out. lia. Qed.
Lemma AU_zero y u r c : (c < r)%nat -> AU y u r c = 0%Qc.
Proof. intro. apply AU_out. lia. Qed.

Lemma Lof_unit st n : unit_lower n (Lof st).
Proof. apply unit_lower_L1. intros; apply AL_zero; auto. Qed.
Lemma Uof_upper st n : upper n (Uof st).
Proof. intros r c _ _ H. apply AU_zero; auto. Qed.

Lemma pivots_from_product n L U A : unit_lower n L -> upper n U -> is_product n L U A ->
  leading_nonsingular n A -> forall c, (c < n)%nat -> U c c <> 0%Qc.
Proof.
  intros HL HU HP NS.
  assert (PU : forall m r c, (r < m <= n)%nat -> (c < m)%nat -> qsum m (fun k => L r k * U k c)%Qc = A r c).
  { intros m r c Hr Hc. rewrite <- HP by lia. symmetry. apply qsum_trunc; [lia|].
    intros k Hk. rewrite (proj2 (HL r k ltac:(lia) ltac:(lia))) by lia. ring. }
  assert (H : forall m, (m <= n)%nat -> forall c, (c < m)%nat -> U c c <> 0%Qc).
  { induction m; intros Hm c Hc; [lia|].
    destruct (Nat.eq_dec c m) as [->|Hne]; [|apply IHm; lia].
    intro Hz.
    destruct (back_subst (fun r c => if Nat.ltb c r then 0%Qc else U r c)) with (k := m) (b := fun r => (- U r m)%Qc)
      as (x & Hx & Hx0).
    { intros r c' Hlt. apply Nat.ltb_lt in Hlt. rewrite Hlt. auto. }
    { intros. rewrite Nat.ltb_irrefl. apply IHm; lia. }
    set (x' := fun c => if Nat.eqb c m then 1%Qc else x c).
    assert (K : x' m = 0%Qc).
    { apply (NS (S m) Hm x'); [|lia].
      intros r Hr.
      transitivity (qsum (S m) (fun c => qsum (S m) (fun k => L r k * U k c * x' c)%Qc)).
      { apply qsum_ext. intros c Hc'. rewrite <- (PU (S m) r c) by lia. rewrite <- qsum_scale_r. auto. }
      rewrite qsum_swap. apply qsum_zero. intros k Hk.
      assert (Ez : qsum (S m) (fun c => U k c * x' c)%Qc = 0%Qc).
      { simpl. unfold x' at 2. rewrite Nat.eqb_refl.
        erewrite qsum_ext. 2:{ intros i Hi. unfold x'.
          assert (Hi' : (i =? m)%nat = false) by (apply Nat.eqb_neq; lia). rewrite Hi'. reflexivity. }
        destruct (Nat.eq_dec k m) as [->|Hkm].
        - rewrite qsum_zero. 2:{ intros i Hi. rewrite HU by lia. ring. }
          rewrite Hz. ring.
        - transitivity ((- U k m) + U k m * 1)%Qc; [f_equal|ring].
          rewrite <- Hx by lia. apply qsum_ext. intros i Hi. cbv beta.
          destruct (Nat.ltb_spec i k); auto. rewrite HU by lia. ring. }
      erewrite qsum_ext. 2:{ intros i Hi. rewrite <- Qcmult_assoc. reflexivity. }
      rewrite qsum_scale, Ez. ring. }
    unfold x' in K. rewrite Nat.eqb_refl in K. apply Q_apart_0_1 in K. auto. }
  intros c Hc. apply (H n); auto.
Qed.

Lemma factorize_ok st n A : represents st n A -> leading_nonsingular n A ->
  exists st', factorize st = Ret st' /\ ulay st' = ulay st /\ decomposed st' n A /\
    (forall c, (c < n)%nat -> Uof st' c c <> 0%Qc).
Proof.
  intros [(V & HL & HU & HF & HA)|HD] NS.
  - unfold factorize. rewrite HF. rewrite (v_p _ _ V).
    destruct (factorize_loop_ok (ulay st) n V A (ul st) (uu st) HL HU HA) as ((l & u) & E & (HL' & HU' & HE & _)).
    rewrite E. simpl in *. eexists. split; [reflexivity|]. split; auto.
    assert (Hp : forall c, (c < n)%nat -> AU (ulay st) u c c <> 0%Qc).
    { apply (pivots_nonzero A (AL (ulay st) l) (AU (ulay st) u) n); auto.
      intros; apply AL_zero; auto. intros; apply AU_zero; auto. }
    split; [|exact Hp].
    split; [repeat split; auto; apply V|]. split; auto.
    apply product; auto.
    intros; apply AL_zero; auto. intros; apply AU_zero; auto.
  - pose proof HD as (W & HF & HP). exists st. unfold factorize. rewrite HF. repeat split; auto; try apply W.
    apply (pivots_from_product n (Lof st) (Uof st) A); auto. apply Lof_unit. apply Uof_upper.
Qed.

(** *** elementAt *)
Lemma elementAt_ok st n A r c : represents st n A -> (r < n)%nat -> (c < n)%nat -> elementAt st r c = Ret (A r c).
Proof.
  intros HR Hr Hc. unfold elementAt.
  destruct HR as [(V & HL & HU & HF & HA)|((V & HL & HU) & HF & HP)].
  - rewrite (rd_p _ _ V), (rd_q _ _ V) by auto. simpl. rewrite HF. rewrite <- HA by auto. unfold A0.
    destruct (Nat.ltb_spec c r).
    + destruct (Nat.leb_spec r c); [lia|].
      destruct (Nat.leb_spec (nn r (yp (ulay st))) c).
      * apply (getL_ok _ _ V); auto. apply inL_spec. lia.
      * rewrite AL_out by lia. auto.
    + destruct (Nat.leb_spec r c); [|lia].
      destruct (Nat.leb_spec (nn c (yq (ulay st))) r).
      * apply (getU_ok _ _ V); auto. apply inU_spec. lia.
      * rewrite AU_out by lia. auto.
  - rewrite (rd_p _ _ V), (rd_q _ _ V) by auto. simpl. rewrite HF. rewrite <- HP by auto.
    pose proof (v_pi _ _ V r Hr) as Hpr. pose proof (v_qi _ _ V c Hc) as Hqc.
    set (y := ulay st) in *. set (pr := nn r (yp y)) in *. set (qc := nn c (yq y)) in *.
    assert (Hz : forall k, (k < Nat.max pr qc)%nat -> (Lof st r k * Uof st k c = 0)%Qc).
    { intros k Hk. destruct (Nat.lt_ge_cases k qc).
      - unfold Uof. rewrite AU_out by (unfold qc in *; fold y; lia). ring.
      - unfold Lof, withdiag. destruct (Nat.eqb_spec r k); [lia|]. rewrite AL_out by (fold y; lia). ring. }
    assert (Hz2 : forall k, (Nat.min r c < k)%nat -> (Lof st r k * Uof st k c = 0)%Qc).
    { intros k Hk. destruct (Nat.lt_ge_cases c k).
      - unfold Uof. rewrite AU_zero by lia. ring.
      - unfold Lof, withdiag. destruct (Nat.eqb_spec r k); [lia|]. rewrite AL_zero by lia. ring. }
    rewrite (qsum_trunc n (S (Nat.min r c))) by (try lia; intros; apply Hz2; lia).
    destruct ((Nat.ltb c r && Nat.leb pr c) || (Nat.leb r c && Nat.leb qc r))%bool eqn:EB.
    + rewrite orb_true_iff, !andb_true_iff, Nat.ltb_lt, !Nat.leb_le in EB.
      destruct (ofor_inv (fun k acc => acc = qsum k (fun k => Lof st r k * Uof st k c)%Qc)
         (Nat.max pr qc) (S (Nat.min r c))
         (fun k acc => a <- safeL y (ul st) r k;; b <- getU y (uu st) k c;; Ret (acc + a * b)%Qc) 0%Qc) as (v & E & Hv).
      * lia.
      * symmetry. apply qsum_zero. auto.
      * intros k acc Hk Hacc.
        assert (EL : safeL y (ul st) r k = Ret (Lof st r k)).
        { unfold safeL, Lof, withdiag. destruct (Nat.eqb_spec r k); auto. apply (getL_ok _ _ V); auto.
          apply inL_spec. fold y. fold pr. lia. }
        rewrite EL. simpl. unfold y. rewrite (getU_ok _ _ V) by (auto; apply inU_spec; fold y; fold qc; lia).
        simpl. eexists. split; [reflexivity|]. subst acc. reflexivity.
      * rewrite E. subst v. auto.
    + rewrite qsum_zero; auto. intros k Hk.
      destruct (Nat.lt_ge_cases k (Nat.max pr qc)); [auto|].
      exfalso. rewrite orb_false_iff, !andb_false_iff, !Nat.leb_gt, Nat.ltb_ge in EB. lia.
Qed.

(** *** solve *)
(** The part of U that the backward sweep uses: entries right of the recorded row end are skipped. *)
Definition Utrunc (st : lu) r c : Qc :=
  if (Nat.eqb r c || Nat.leb c (nn r (ys (ulay st))))%bool then Uof st r c else 0%Qc.

Lemma fwd_row_ok y n l i x : valid_layout y n -> lenL y n l -> (i < n)%nat -> (n <= length x)%nat ->
  exists x', fwd_row y l i x = Ret x' /\ length x' = length x /\
    (forall j, j <> i -> vfun x' j = vfun x j) /\
    vfun x' i = (vfun x i - qsum i (fun k => AL y l i k * vfun x k))%Qc.
Proof.
  intros V HL Hi Hx. unfold fwd_row. rewrite (rd_p _ _ V) by auto. simpl.
  destruct (ofor_inv (fun m x' => length x' = length x /\ (forall j, j <> i -> vfun x' j = vfun x j) /\
    vfun x' i = (vfun x i - qsum m (fun k => AL y l i k * vfun x k))%Qc)
    (nn i (yp y)) i (fun k x' =>
    xi <- rd x' i ;; a <- getL y l i k ;; xk <- rd x' k ;; wr x' i (xi - a * xk)%Qc) x) as (x' & E & H1 & H2 & H3).
  - apply (v_pi _ _ V); auto.
  - repeat split; auto. rewrite qsum_zero. ring. intros k Hk. rewrite AL_out by lia. ring.
  - intros k x0 Hk (H1 & H2 & H3).
    rewrite (rd_ok x0 i 0%Qc), (rd_ok x0 k 0%Qc) by lia. simpl.
    rewrite (getL_ok _ _ V) by (auto; apply inL_spec; lia). simpl.
    rewrite wr_ok by lia. eexists. split; [reflexivity|]. rewrite upd_length. split; auto. split.
    + intros j Hj. unfold vfun. rewrite nth_upd_neq by auto. apply H2; auto.
    + unfold vfun. rewrite nth_upd_eq by lia. fold (vfun x0 i) (vfun x0 k). rewrite H3, H2 by lia.
      simpl. unfold vfun. ring.
  - eauto.
Qed.

Lemma bwd_row_ok y n u i x : valid_layout y n -> lenU y n u -> (i < n)%nat -> (n <= length x)%nat ->
  exists x', bwd_row y u i x = Ret x' /\ length x' = length x /\
    (forall j, j <> i -> vfun x' j = vfun x j) /\
    vfun x' i = ((vfun x i - qsum n (fun k => if (Nat.ltb i k && Nat.leb k (nn i (ys y)))%bool then AU y u i k * vfun x k else 0)) / AU y u i i)%Qc.
Proof.
  intros V HU Hi Hx. unfold bwd_row. rewrite (rd_s _ _ V) by auto. simpl.
  pose proof (v_si _ _ V i Hi) as Hsi.
  set (g := fun k => if (Nat.ltb i k && Nat.leb k (nn i (ys y)))%bool then (AU y u i k * vfun x k)%Qc else 0%Qc).
  assert (LOOP : exists x1, ofor (S i) (S (nn i (ys y))) (fun k x' =>
          qk <- rd (yq y) k ;;
          if Nat.leb qk i then
            xi <- rd x' i ;; a <- getU y u i k ;; xk <- rd x' k ;; wr x' i (xi - a * xk)%Qc
          else Ret x') x = Ret x1 /\ length x1 = length x /\ (forall j, j <> i -> vfun x1 j = vfun x j) /\
          vfun x1 i = (vfun x i - qsum n g)%Qc).
  { destruct (Nat.le_gt_cases i (nn i (ys y))) as [Hle|Hgt].
    - destruct (ofor_inv (fun m x' => length x' = length x /\ (forall j, j <> i -> vfun x' j = vfun x j) /\
        vfun x' i = (vfun x i - qsum m g)%Qc)
        (S i) (S (nn i (ys y))) (fun k x' =>
          qk <- rd (yq y) k ;;
          if Nat.leb qk i then
            xi <- rd x' i ;; a <- getU y u i k ;; xk <- rd x' k ;; wr x' i (xi - a * xk)%Qc
          else Ret x') x) as (x' & E & H1 & H2 & H3).
      + lia.
      + repeat split; auto. rewrite qsum_zero. ring. intros k Hk. unfold g.
        destruct (Nat.ltb_spec i k); simpl; auto. lia.
      + intros k x0 Hk (H1 & H2 & H3).
        rewrite (rd_q _ _ V) by lia. cbn [obind].
        assert (Hg : g k = (AU y u i k * vfun x k)%Qc).
        { unfold g. destruct (Nat.ltb_spec i k); [|lia]. destruct (Nat.leb_spec k (nn i (ys y))); [|lia]. auto. }
        destruct (Nat.leb_spec (nn k (yq y)) i).
        * rewrite (rd_ok x0 i 0%Qc), (rd_ok x0 k 0%Qc) by lia. cbn [obind].
          rewrite (getU_ok _ _ V) by (auto; try apply inU_spec; lia). cbn [obind].
          rewrite wr_ok by lia. eexists. split; [reflexivity|]. rewrite upd_length. split; auto. split.
          -- intros j Hj. unfold vfun. rewrite nth_upd_neq by auto. apply H2; auto.
          -- unfold vfun. rewrite nth_upd_eq by lia. fold (vfun x0 i) (vfun x0 k). rewrite H3, H2 by lia.
             simpl. rewrite Hg. unfold vfun. ring.
        * exists x0. split; auto. split; auto. split; auto. rewrite H3. simpl. rewrite Hg, AU_out by lia. ring.
      + exists x'. split; auto. split; auto. split; auto. rewrite H3. rewrite (qsum_trunc n (S (nn i (ys y)))); auto.
        intros k Hk. unfold g. destruct (Nat.leb_spec k (nn i (ys y))); [lia|]. rewrite andb_false_r. auto.
    - exists x. unfold ofor. replace (S (nn i (ys y)) - S i)%nat with 0%nat by lia. simpl.
      repeat split; auto. rewrite qsum_zero. ring. intros k Hk. unfold g.
      destruct (Nat.ltb_spec i k); simpl; auto. destruct (Nat.leb_spec k (nn i (ys y))); auto. lia. }
  destruct LOOP as (x1 & E & H1 & H2 & H3). rewrite E. cbn [obind].
  rewrite (rd_ok x1 i 0%Qc) by lia. cbn [obind].
  rewrite (getU_ok _ _ V) by (auto; apply inU_spec; pose proof (v_qi _ _ V i Hi); lia). cbn [obind].
  rewrite wr_ok by lia. eexists. split; [reflexivity|]. rewrite upd_length. split; auto. split.
  - intros j Hj. unfold vfun. rewrite nth_upd_neq by auto. apply H2; auto.
  - unfold vfun. rewrite nth_upd_eq by lia. fold (vfun x1 i). rewrite H3. auto.
Qed.

Lemma solve_ok st n A b : represents st n A -> leading_nonsingular n A -> (n <= length b)%nat ->
  exists st' x, solve st b = Ret (st', x) /\ factorize st = Ret st' /\ ulay st' = ulay st /\ decomposed st' n A /\
    (forall c, (c < n)%nat -> Uof st' c c <> 0%Qc) /\
    length x = length b /\
    (forall j, (n <= j)%nat -> vfun x j = vfun b j) /\
    (forall r, (r < n)%nat ->
       qsum n (fun k => Lof st' r k * qsum n (fun c => Utrunc st' k c * vfun x c))%Qc = vfun b r).
Proof.
  intros HR NS Hb.
  destruct (factorize_ok st n A HR NS) as (st' & E & EY & HD & HP).
  unfold solve. rewrite E. cbn [obind]. pose proof HD as ((V & HL & HU) & HF & HPr).
  rewrite (v_p _ _ V).
  (* forward *)
  destruct (ofor_inv (fun m x => length x = length b /\ (forall j, (m <= j)%nat -> vfun x j = vfun b j) /\
     forall r, (r < m)%nat -> vfun x r = (vfun b r - qsum r (fun k => AL (ulay st') (ul st') r k * vfun x k))%Qc)
     (Nat.min 1 n) n (fwd_row (ulay st') (ul st')) b) as (x1 & E1 & L1' & F1 & F2).
  { lia. }
  { repeat split; auto. intros r Hr. assert (r = 0)%nat by lia. subst. simpl. ring. }
  { intros i x Hi (H1 & H2 & H3).
    destruct (fwd_row_ok (ulay st') n (ul st') i x V HL ltac:(lia) ltac:(lia)) as (x' & E' & K1 & K2 & K3).
    exists x'. split; auto. split; [lia|]. split.
    - intros j Hj. rewrite K2 by lia. apply H2. lia.
    - intros r Hr. destruct (Nat.eq_dec r i) as [->|Hne].
      + rewrite K3. rewrite H2 by lia. erewrite qsum_ext; [reflexivity|]. intros k Hk. cbv beta. rewrite K2 by lia. auto.
      + rewrite K2 by lia. rewrite H3 by lia. erewrite qsum_ext; [reflexivity|]. intros k Hk. cbv beta. rewrite K2 by lia. auto. }
  assert (E1' : ofor 1 n (fwd_row (ulay st') (ul st')) b = Ret x1).
  { destruct n; [|exact E1]. unfold ofor in E1 |- *. simpl in *. auto. }
  rewrite E1'. cbn [obind].
  (* backward *)
  set (Ui := fun i k => if (Nat.ltb i k && Nat.leb k (nn i (ys (ulay st'))))%bool then Uof st' i k else 0%Qc).
  assert (BW : exists x2, ofor_down n (bwd_row (ulay st') (uu st')) x1 = Ret x2 /\ length x2 = length b /\
     (forall j, (n <= j)%nat -> vfun x2 j = vfun b j) /\
     forall r, (r < n)%nat -> (vfun x2 r * Uof st' r r = vfun x1 r - qsum n (fun k => Ui r k * vfun x2 k))%Qc).
  { unfold ofor_down.
    destruct (ofor_inv (fun m x => length x = length b /\ (forall j, (n <= j)%nat -> vfun x j = vfun b j) /\
      (forall j, (j < n - m)%nat -> vfun x j = vfun x1 j) /\
      forall r, (n - m <= r < n)%nat -> (vfun x r * Uof st' r r = vfun x1 r - qsum n (fun k => Ui r k * vfun x k))%Qc)
      0%nat n (fun k => bwd_row (ulay st') (uu st') (n - 1 - k)) x1) as (x2 & E2 & K1 & K2 & K3 & K4).
    - lia.
    - repeat split; auto. intros; lia.
    - intros k x Hk (H1 & H2 & H3 & H4). set (i := (n - 1 - k)%nat).
      destruct (bwd_row_ok (ulay st') n (uu st') i x V HU ltac:(lia) ltac:(lia)) as (x' & E' & K1 & K2 & K3).
      exists x'. split; auto. split; [lia|].
      assert (SUM : forall r, (i <= r)%nat -> qsum n (fun k => Ui r k * vfun x' k)%Qc = qsum n (fun k => Ui r k * vfun x k)%Qc).
      { intros r Hr. apply qsum_ext. intros j Hj. unfold Ui. destruct (Nat.ltb_spec r j); simpl; [|ring].
        rewrite K2 by lia. auto. }
      split; [intros; rewrite K2 by lia; apply H2; lia|]. split.
      + intros j Hj. rewrite K2 by lia. apply H3. lia.
      + intros r Hr. rewrite SUM by lia. destruct (Nat.eq_dec r i) as [->|Hne].
        * rewrite K3. fold (Uof st' i i).
          erewrite (qsum_ext n (fun k0 => if (Nat.ltb i k0 && _)%bool then _ else _)).
          2:{ intros j Hj. instantiate (1 := fun j => (Ui i j * vfun x j)%Qc). unfold Ui, Uof. cbv beta.
              destruct (Nat.ltb i j && Nat.leb j (nn i (ys (ulay st'))))%bool; [auto|ring]. }
          rewrite H3 by lia. change (AU (ulay st') (uu st') i i) with (Uof st' i i). field. apply HP. lia.
        * rewrite K2 by lia. apply H4. lia.
    - exists x2. split; auto. split; auto. split; auto. intros r Hr. apply K4. lia. }
  destruct BW as (x2 & E2 & L2 & O2 & B2). rewrite E2. cbn [obind].
  exists st', x2. repeat split; auto; try apply V.
  intros r Hr.
  assert (UX : forall k, (k < n)%nat -> qsum n (fun c => Utrunc st' k c * vfun x2 c)%Qc = vfun x1 k).
  { intros k Hk. transitivity (vfun x2 k * Uof st' k k + qsum n (fun c => Ui k c * vfun x2 c))%Qc.
    2:{ rewrite B2 by auto. ring. }
    transitivity (qsum n (fun c => (if Nat.eqb c k then vfun x2 k * Uof st' k k else 0) + Ui k c * vfun x2 c)%Qc).
    - apply qsum_ext. intros c Hc. unfold Utrunc, Ui.
      destruct (Nat.eqb_spec c k) as [->|Hne].
      + rewrite Nat.eqb_refl. simpl. rewrite Nat.ltb_irrefl. simpl. ring.
      + assert (Ek : (k =? c)%nat = false) by (apply Nat.eqb_neq; auto). rewrite Ek. simpl.
        destruct (Nat.ltb_spec k c); simpl.
        * destruct (Nat.leb c (nn k (ys (ulay st')))); ring.
        * unfold Uof. rewrite AU_zero by lia. destruct (Nat.leb c (nn k (ys (ulay st')))); ring.
    - rewrite qsum_add. f_equal. rewrite (qsum_single n k) by (auto; intros i Hi Hne;
        assert (Ei : (i =? k)%nat = false) by (apply Nat.eqb_neq; auto); rewrite Ei; auto).
      rewrite Nat.eqb_refl. auto. }
  erewrite qsum_ext. 2:{ intros k Hk. rewrite UX by auto. reflexivity. }
  rewrite (qsum_trunc n (S r)).
  - simpl. unfold Lof at 2, withdiag. rewrite Nat.eqb_refl. rewrite (F2 r) by lia.
    erewrite (qsum_ext r). 2:{ intros k Hk. unfold Lof, withdiag. destruct (Nat.eqb_spec r k); [lia|]. reflexivity. }
    ring.
  - lia.
  - intros k Hk. unfold Lof, withdiag. destruct (Nat.eqb_spec r k); [lia|]. rewrite AL_zero by lia. ring.
Qed.
