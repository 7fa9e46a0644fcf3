(** LUFacts4.v - exact condition for solve, secant updates, setMatrixFast, luToMatrix. *)
From Coq Require Import List Arith Lia ZArith QArith Qcanon Bool.
Require Import Verif.Base Verif.BaseFacts Verif.LUModel Verif.LUSpec Verif.LUFacts Verif.LUFacts2 Verif.LUFacts3.
Import ListNotations.

(** ** Uniqueness of LU *)
Lemma LU_unique n L U L' U' A :
  unit_lower n L -> upper n U -> is_product n L U A ->
  unit_lower n L' -> upper n U' -> is_product n L' U' A ->
  (forall c, (c < n)%nat -> U c c <> 0%Qc) ->
  forall m, (m <= n)%nat ->
    (forall r c, (r < m)%nat -> (c < n)%nat -> U r c = U' r c) /\
    (forall r c, (r < n)%nat -> (c < m)%nat -> L r c = L' r c).
Proof.
  intros HL HU HP HL' HU' HP' Hp.
  induction m; intro Hm; [split; intros; lia|].
  destruct (IHm ltac:(lia)) as [IU IL].
  assert (UM : forall c, (c < n)%nat -> U m c = U' m c).
  { intros c Hc. pose proof (HP m c ltac:(lia) Hc) as E. rewrite <- (HP' m c ltac:(lia) Hc) in E.
    rewrite (qsum_trunc n (S m)) in E by (try lia; intros k Hk; rewrite (proj2 (HL m k ltac:(lia) ltac:(lia))) by lia; ring).
    rewrite (qsum_trunc n (S m) (fun k => L' m k * U' k c)%Qc) in E
      by (try lia; intros k Hk; rewrite (proj2 (HL' m k ltac:(lia) ltac:(lia))) by lia; ring).
    simpl in E. rewrite (proj1 (HL m m ltac:(lia) ltac:(lia)) eq_refl) in E.
    rewrite (proj1 (HL' m m ltac:(lia) ltac:(lia)) eq_refl) in E.
    erewrite (qsum_ext m) in E. 2:{ intros k Hk. rewrite (IU k c), (IL m k) by lia. reflexivity. }
    set (S1 := qsum m (fun k => L' m k * U' k c)%Qc) in *.
    transitivity ((S1 + 1 * U m c) - S1)%Qc; [ring|]. rewrite E. ring. }
  split.
  - intros r c Hr Hc. destruct (Nat.eq_dec r m) as [->|]; [auto|apply IU; lia].
  - intros r c Hr Hc. destruct (Nat.eq_dec c m) as [->|]; [|apply IL; lia].
    pose proof (HP r m Hr ltac:(lia)) as E. rewrite <- (HP' r m Hr ltac:(lia)) in E.
    rewrite (qsum_trunc n (S m)) in E by (try lia; intros k Hk; rewrite (HU k m) by lia; ring).
    rewrite (qsum_trunc n (S m) (fun k => L' r k * U' k m)%Qc) in E
      by (try lia; intros k Hk; rewrite (HU' k m) by lia; ring).
    simpl in E. erewrite (qsum_ext m) in E. 2:{ intros k Hk. rewrite (IU k m), (IL r k) by lia. reflexivity. }
    rewrite <- UM in E by lia. set (S1 := qsum m (fun k => L' r k * U' k m)%Qc) in *.
    assert (E2 : (L r m * U m m = L' r m * U m m)%Qc).
    { transitivity ((S1 + L r m * U m m) - S1)%Qc; [ring|]. rewrite E. ring. }
    transitivity ((L r m * U m m) / U m m)%Qc; [field; apply Hp; lia|]. rewrite E2. field. apply Hp; lia.
Qed.

(** ** When solve is right *)
Lemma lastcol_spec n e r c : (r < n)%nat -> (nn r (scan_s n e) < c)%nat -> forall c', (c <= c')%nat -> ~ stored e r c'.
Proof.
  intros Hr Hc c' Hc' Hs. destruct (scan_s_spec n e) as [_ H]. destruct (H r Hr) as [H1 _].
  specialize (H1 c' Hs). lia.
Qed.

Lemma qsum_indicator n c (f : nat -> Qc) : (c < n)%nat ->
  qsum n (fun k => f k * (if Nat.eqb k c then 1 else 0))%Qc = f c.
Proof.
  intro Hc. rewrite (qsum_single n c) by (auto; intros i Hi Hne; apply Nat.eqb_neq in Hne; rewrite Hne; ring).
  rewrite Nat.eqb_refl. ring.
Qed.

Lemma unit_lower_inj n L (x : nat -> Qc) : unit_lower n L ->
  (forall r, (r < n)%nat -> qsum n (fun k => L r k * x k)%Qc = 0%Qc) -> forall k, (k < n)%nat -> x k = 0%Qc.
Proof.
  intros HL H k. induction k as [k IH] using lt_wf_ind. intro Hk.
  pose proof (H k Hk) as E.
  rewrite (qsum_trunc n (S k)) in E by (try lia; intros j Hj; rewrite (proj2 (HL k j ltac:(lia) ltac:(lia))) by lia; ring).
  simpl in E. rewrite qsum_zero in E by (intros i Hi; rewrite IH by lia; ring).
  rewrite (proj1 (HL k k Hk Hk) eq_refl) in E. rewrite <- E. ring.
Qed.

Lemma solve_correct_iff e A n st :
  represents st n A -> ys (ulay st) = scan_s n e -> leading_nonsingular n A ->
  (fill_covered e A n <->
   forall b, length b = n -> exists st' x, solve st b = Ret (st', x) /\ length x = n /\
     solves n A (vfun x) (vfun b)).
Proof.
  intros HR HY NS.
  assert (MA : forall st' x r, decomposed st' n A -> (r < n)%nat ->
     qsum n (fun c => A r c * x c)%Qc = qsum n (fun k => Lof st' r k * qsum n (fun c => Uof st' k c * x c))%Qc).
  { intros st' x r (_ & _ & HP) Hr. apply (mul_assoc_vec A (AL (ulay st') (ul st')) (Uof st')).
    intros c Hc. apply HP; auto. }
  split.
  - intros HC b Hb.
    destruct (solve_ok st n A b HR NS ltac:(lia)) as (st' & x & E & EF & EY & HD & HPv & Lx & _ & HX).
    exists st', x. split; auto. split; [lia|]. intros r Hr. rewrite (MA st'), <- HX by auto.
    apply qsum_ext. intros k Hk. f_equal. apply qsum_ext. intros c Hc. f_equal.
    unfold Utrunc. destruct (Nat.eqb_spec k c); simpl; auto.
    destruct (Nat.leb_spec c (nn k (ys (ulay st')))); auto.
    destruct (Nat.lt_ge_cases c k).
    + unfold Uof. apply AU_zero; auto.
    + apply (HC (Lof st') (Uof st')); try lia.
      * apply Lof_unit. * apply Uof_upper. * apply HD.
      * apply (lastcol_spec n e k c Hk). rewrite EY, HY in H. exact H.
  - intros HB.
    destruct (factorize_ok st n A HR NS) as (st' & EF & EY & HD & HPv).
    assert (UT : forall k c, (k < n)%nat -> (c < n)%nat -> Utrunc st' k c = Uof st' k c).
    { intros k c Hk Hc.
      set (b := map (fun r => A r c) (seq 0 n)).
      assert (Lb : length b = n) by (unfold b; rewrite map_length, seq_length; auto).
      assert (Vb : forall r, (r < n)%nat -> vfun b r = A r c).
      { intros r Hr. unfold vfun, b. apply (nth_map_seq n (fun r => A r c)); auto. }
      destruct (HB b Lb) as (st1 & x & E1 & Lx & HX).
      destruct (solve_ok st n A b HR NS ltac:(lia)) as (st2 & x2 & E2 & EF2 & _ & _ & _ & _ & _ & HX2).
      rewrite E1 in E2. injection E2 as <- <-. rewrite EF in EF2. injection EF2 as <-.
      assert (XE : forall j, (j < n)%nat -> vfun x j = if Nat.eqb j c then 1%Qc else 0%Qc).
      { intros j Hj.
        assert (K : (vfun x j - (if Nat.eqb j c then 1 else 0) = 0)%Qc).
        { apply (NS n (le_n n) (fun j => vfun x j - (if Nat.eqb j c then 1 else 0))%Qc); auto.
          intros r Hr.
          transitivity (qsum n (fun j => A r j * vfun x j - A r j * (if Nat.eqb j c then 1 else 0))%Qc).
          { apply qsum_ext; intros; ring. }
          rewrite qsum_sub, (HX r Hr), Vb, (qsum_indicator n c) by auto. ring. }
        transitivity ((vfun x j - (if Nat.eqb j c then 1 else 0)) + (if Nat.eqb j c then 1 else 0))%Qc; [ring|].
        rewrite K. ring. }
      assert (Z : forall k, (k < n)%nat -> (qsum n (fun c => Uof st' k c * vfun x c) - qsum n (fun c => Utrunc st' k c * vfun x c) = 0)%Qc).
      { apply (unit_lower_inj n (Lof st')); [apply Lof_unit|].
        intros r Hr.
        transitivity (qsum n (fun k => Lof st' r k * qsum n (fun c => Uof st' k c * vfun x c) -
                                       Lof st' r k * qsum n (fun c => Utrunc st' k c * vfun x c))%Qc).
        { apply qsum_ext; intros; ring. }
        rewrite qsum_sub, HX2, <- (MA st') by auto. rewrite (HX r Hr). ring. }
      specialize (Z k Hk).
      assert (S1 : forall f : nat -> Qc, qsum n (fun j => f j * vfun x j)%Qc = f c).
      { intro f. rewrite <- (qsum_indicator n c f Hc). apply qsum_ext. intros i Hi. rewrite XE by auto. auto. }
      rewrite (S1 (fun c => Uof st' k c)), (S1 (fun c => Utrunc st' k c)) in Z.
      transitivity (Uof st' k c - (Uof st' k c - Utrunc st' k c))%Qc; [ring|]. rewrite Z. ring. }
    intros L U HL HU HP r c Hrc HN.
    pose proof HD as (_ & _ & HPr).
    destruct (LU_unique n (Lof st') (Uof st') L U A) with (m := n) as [HU1 _]; auto.
    { apply Lof_unit. } { apply Uof_upper. }
    rewrite <- HU1 by lia. rewrite <- UT by lia. unfold Utrunc.
    destruct (Nat.eqb_spec r c); [lia|]. simpl.
    destruct (Nat.leb_spec c (nn r (ys (ulay st')))) as [Hle|Hgt]; auto.
    exfalso. destruct (scan_s_spec n e) as [_ H]. destruct (H r ltac:(lia)) as [_ [Hz|Hst]].
    + rewrite EY, HY in Hle. lia.
    + rewrite EY, HY in Hle. exact (HN _ Hle Hst).
Qed.

Lemma U_zero_above n L U e c : unit_lower n L -> upper n U -> is_product n L U (mval e) -> (c < n)%nat ->
  forall r, (r < n)%nat -> (forall r', (r' <= r)%nat -> ~ stored e r' c) -> U r c = 0%Qc.
Proof.
  intros HL HU HP Hc r. induction r as [r IH] using lt_wf_ind. intros Hr HN.
  pose proof (HP r c Hr Hc) as E.
  rewrite (qsum_trunc n (S r)) in E by (try lia; intros k Hk; rewrite (proj2 (HL r k ltac:(lia) ltac:(lia))) by lia; ring).
  simpl in E. rewrite (proj1 (HL r r Hr Hr) eq_refl) in E.
  rewrite qsum_zero in E.
  - rewrite mval_notin in E by (apply HN; lia). rewrite <- E. ring.
  - intros k Hk. rewrite (IH k) by (try lia; intros; apply HN; lia). ring.
Qed.

Lemma stencil_covers_fill e n : stencil_covers e n -> fill_covered e (mval e) n.
Proof.
  intros HC L U HL HU HP r c Hrc HN.
  apply (U_zero_above n L U e c); auto; try lia.
  intros r' Hr' Hs. destruct (HC r c Hrc) as (c' & Hc' & Hs'). { exists r'; auto. } exact (HN _ Hc' Hs').
Qed.

Lemma upper_stencil_fill e n : leading_nonsingular n (mval e) ->
  (forall r c, stored e r c -> (r <= c)%nat) -> fill_covered e (mval e) n.
Proof.
  intros NS HS L U HL HU HP r c Hrc HN.
  assert (HI : is_product n (fun r c => if Nat.eqb r c then 1%Qc else 0%Qc) (mval e) (mval e)).
  { intros r0 c0 Hr0 Hc0. rewrite (qsum_single n r0) by (auto; intros i Hi Hne;
      assert (E : (r0 =? i)%nat = false) by (apply Nat.eqb_neq; auto); rewrite E; ring).
    rewrite Nat.eqb_refl. ring. }
  assert (HPv : forall c, (c < n)%nat -> U c c <> 0%Qc) by (eapply pivots_from_product; eauto).
  destruct (LU_unique n L U (fun r c => if Nat.eqb r c then 1%Qc else 0%Qc) (mval e) (mval e)) with (m := n) as [H _]; auto.
  - intros r0 c0 _ _. split; intro H; [subst; rewrite Nat.eqb_refl; auto|].
    assert (E : (r0 =? c0)%nat = false) by (apply Nat.eqb_neq; lia). rewrite E. auto.
  - intros r0 c0 _ _ Hlt. apply mval_notin. intro Hs. apply HS in Hs. lia.
  - rewrite H by lia. apply mval_notin. apply (HN c). lia.
Qed.

(** ** Hart update *)
Definition covered (st : lu) (n : nat) : Prop :=
  (forall i, (i < n)%nat -> (i <= nn i (ys (ulay st)))%nat) /\
  (forall r c, (r < n)%nat -> (c < n)%nat -> (nn r (ys (ulay st)) < c)%nat -> Uof st r c = 0%Qc).

Lemma qsum_nonneg n f : (forall i, (i < n)%nat -> (0 <= f i)%Qc) -> (0 <= qsum n f)%Qc.
Proof.
  intro H. induction n; simpl.
  - apply Qcle_refl.
  - assert (0 <= qsum n f)%Qc by (apply IHn; intros; apply H; lia).
    pose proof (H n ltac:(lia)). qclra.
Qed.
Lemma qsum_pos n f k : (forall i, (i < n)%nat -> (0 <= f i)%Qc) -> (k < n)%nat -> f k <> 0%Qc -> qsum n f <> 0%Qc.
Proof.
  intros H Hk Hne. induction n; [lia|]. simpl.
  assert (0 <= qsum n f)%Qc by (apply qsum_nonneg; intros; apply H; lia).
  pose proof (H n ltac:(lia)).
  destruct (Nat.eq_dec k n) as [->|].
  - intro E. apply Hne. apply Qcle_antisym; auto. qclra.
  - intro E. apply IHn; [intros; apply H; lia|lia|]. apply Qcle_antisym; auto. qclra.
Qed.
Lemma sq_nonneg a : (0 <= a * a)%Qc.
Proof. qcnra. Qed.

Definition lenR (n : nat) (r : list Qc) := length r = n.

Section Hart.
Variables (y : layout) (n : nat) (s yv : list Qc).
Hypothesis V : valid_layout y n.
Hypothesis Hs : (n <= length s)%nat.
Hypothesis Hy : (n <= length yv)%nat.
Hypothesis Hdiag : forall i, (i < n)%nat -> (i <= nn i (ys y))%nat.

Definition cov (u : list Qc) := forall r c, (r < n)%nat -> (c < n)%nat -> (nn r (ys y) < c)%nat -> AU y u r c = 0%Qc.
Definition Us (u : list Qc) i := qsum n (fun k => AU y u i k * vfun s k)%Qc.

Definition hinv (i : nat) (st : list Qc * list Qc * list Qc) : Prop :=
  let '(l, u, r) := st in
  lenL y n l /\ lenU y n u /\ length r = n /\ cov u /\
  (forall k, (k < i)%nat -> vfun r k = Us u k) /\
  (forall k, (k < i)%nat -> (qsum k (fun j => AL y l k j * Us u j) + Us u k = vfun yv k)%Qc).

Lemma Us_range u i : cov u -> (i < n)%nat ->
  Us u i = qsum (S (nn i (ys y))) (fun k => AU y u i k * vfun s k)%Qc.
Proof.
  intros HC Hi. unfold Us. pose proof (v_si _ _ V i Hi). apply qsum_trunc; [lia|].
  intros k Hk. rewrite HC by lia. ring.
Qed.

Lemma hart_row_ok i st : (i < n)%nat ->
  (exists k, (i <= k <= nn i (ys y))%nat /\ (nn k (yq y) <= i)%nat /\ vfun s k <> 0%Qc) ->
  hinv i st -> exists st', hart_row y s yv i st = Ret st' /\ hinv (S i) st'.
Proof.
  intros Hi (k0 & Hk0 & Hq0 & Hs0) HI. destruct st as [[l u] r]. destruct HI as (HL & HU & Hr & HC & H1 & H2).
  pose proof (v_pi _ _ V i Hi) as Hp. pose proof (v_si _ _ V i Hi) as Hsi. pose proof (Hdiag i Hi) as Hd.
  pose proof (v_qi _ _ V i Hi) as Hqi.
  unfold hart_row. rewrite (rd_p _ _ V), (rd_s _ _ V) by auto. cbn [obind].
  rewrite (rd_ok yv i 0%Qc) by lia. cbn [obind]. fold (vfun yv i).
  set (a1 := fun k => if Nat.leb (nn i (yp y)) k then (vfun r k * vfun r k)%Qc else 0%Qc).
  set (a2 := fun k => if inU y i k then (vfun s k * vfun s k)%Qc else 0%Qc).
  destruct (ofor_inv (fun k ba => ba = (vfun yv i - qsum k (fun j => AL y l i j * vfun r j), qsum k a1)%Qc)
     (nn i (yp y)) i (fun k ba =>
           rk <- rd r k ;; a <- getL y l i k ;;
           Ret (fst ba - a * rk, snd ba + rk * rk)%Qc) (vfun yv i, 0%Qc)) as (ba1 & E1 & Hba1).
  { auto. }
  { f_equal.
    - rewrite qsum_zero. ring. intros k Hk. rewrite AL_out by lia. ring.
    - symmetry. apply qsum_zero. intros k Hk. unfold a1. destruct (Nat.leb_spec (nn i (yp y)) k); auto. lia. }
  { intros k ba Hk ->. rewrite (rd_ok r k 0%Qc) by lia. cbn [obind].
    rewrite (getL_ok _ _ V) by (auto; apply inL_spec; lia). cbn [obind fst snd].
    eexists. split; [reflexivity|]. simpl. f_equal.
    - unfold vfun; ring.
    - f_equal. unfold a1. destruct (Nat.leb_spec (nn i (yp y)) k); [reflexivity|lia]. }
  rewrite E1. cbn [obind]. subst ba1.
  destruct (ofor_inv (fun k ba => ba = (vfun yv i - qsum i (fun j => AL y l i j * vfun r j) - qsum k (fun j => AU y u i j * vfun s j),
        qsum i a1 + qsum k a2)%Qc)
     i (S (nn i (ys y))) (fun k ba =>
           qk <- rd (yq y) k ;;
           if Nat.leb qk i then
             sk <- rd s k ;; b <- getU y u i k ;;
             Ret (fst ba - b * sk, snd ba + sk * sk)%Qc
           else Ret ba)
     (vfun yv i - qsum i (fun j => AL y l i j * vfun r j), qsum i a1)%Qc) as (ba2 & E2 & Hba2).
  { lia. }
  { f_equal.
    - rewrite (qsum_zero i (fun j => AU y u i j * vfun s j)%Qc). ring. intros k Hk. rewrite AU_zero by lia. ring.
    - rewrite (qsum_zero i a2). ring. intros k Hk. unfold a2. destruct (inU y i k) eqn:EU; auto. apply inU_spec in EU. lia. }
  { intros k ba Hk ->. rewrite (rd_q _ _ V) by lia. cbn [obind].
    destruct (Nat.leb_spec (nn k (yq y)) i).
    - rewrite (rd_ok s k 0%Qc) by lia. cbn [obind].
      assert (EI : inU y i k = true) by (apply inU_spec; lia).
      rewrite (getU_ok _ _ V) by (auto; lia). cbn [obind fst snd].
      eexists. split; [reflexivity|]. simpl. f_equal.
      + unfold vfun; ring.
      + unfold a2 at 3. rewrite EI. unfold vfun. ring.
    - eexists. split; [reflexivity|]. simpl. rewrite AU_out by lia.
      assert (EI : inU y i k = false). { destruct (inU y i k) eqn:EU; auto. apply inU_spec in EU. lia. }
      unfold a2 at 3. rewrite EI. f_equal; ring. }
  rewrite E2. cbn [obind]. subst ba2.
  set (beta := (vfun yv i - qsum i (fun j => AL y l i j * vfun r j) - qsum (S (nn i (ys y))) (fun j => AU y u i j * vfun s j))%Qc).
  set (aa := (qsum i a1 + qsum (S (nn i (ys y))) a2)%Qc).
  assert (Haa : aa <> 0%Qc).
  { assert (N1 : (0 <= qsum i a1)%Qc).
    { apply qsum_nonneg. intros k Hk. unfold a1. destruct (Nat.leb _ k); [apply sq_nonneg|apply Qcle_refl]. }
    assert (N2 : qsum (S (nn i (ys y))) a2 <> 0%Qc).
    { apply (qsum_pos _ _ k0).
      - intros k Hk. unfold a2. destruct (inU y i k); [apply sq_nonneg|apply Qcle_refl].
      - lia.
      - unfold a2. assert (EI : inU y i k0 = true) by (apply inU_spec; lia). rewrite EI.
        intro E. apply Qcmult_eq0 in E. tauto. }
    assert (N3 : (0 <= qsum (S (nn i (ys y))) a2)%Qc).
    { apply qsum_nonneg. intros k Hk. unfold a2. destruct (inU y i k); [apply sq_nonneg|apply Qcle_refl]. }
    intro E. apply N2. apply Qcle_antisym; auto. unfold aa in E.
    assert (E' : qsum (S (nn i (ys y))) a2 = (- qsum i a1)%Qc).
    { transitivity (qsum i a1 + qsum (S (nn i (ys y))) a2 - qsum i a1)%Qc; [ring|]. rewrite E. ring. }
    rewrite E'. qclra. }
  assert (Hr' : forall j, (j < i)%nat -> vfun r j = Us u j) by auto.
  assert (Hbeta : beta = (vfun yv i - qsum i (fun j => AL y l i j * Us u j) - Us u i)%Qc).
  { unfold beta. rewrite (Us_range u i HC Hi).
    rewrite (qsum_ext i (fun j => AL y l i j * vfun r j)%Qc (fun j => AL y l i j * Us u j)%Qc)
      by (intros k Hk; rewrite Hr' by auto; auto). reflexivity. }
  destruct (Qceqb beta 0) eqn:EB.
  - apply Qceqb_eq in EB.
    destruct (ofor_inv (fun k acc => acc = qsum k (fun j => AU y u i j * vfun s j)%Qc)
       i (S (nn i (ys y))) (fun k acc =>
            qk <- rd (yq y) k ;;
            if Nat.leb qk i then
              sk <- rd s k ;; b <- getU y u i k ;; Ret (acc + b * sk)%Qc
            else Ret acc) 0%Qc) as (ri & E3 & Hri).
    { lia. }
    { rewrite qsum_zero; auto. intros k Hk. rewrite AU_zero by lia. ring. }
    { intros k acc Hk ->. rewrite (rd_q _ _ V) by lia. cbn [obind].
      destruct (Nat.leb_spec (nn k (yq y)) i).
      - rewrite (rd_ok s k 0%Qc) by lia. cbn [obind].
        rewrite (getU_ok _ _ V) by (auto; try apply inU_spec; lia). cbn [obind].
        eexists. split; [reflexivity|]. simpl. unfold vfun. ring.
      - eexists. split; [reflexivity|]. simpl. rewrite (AU_out _ _ i k) by lia. ring. }
    rewrite E3. cbn [obind]. rewrite wr_ok by lia. cbn [obind].
    eexists. split; [reflexivity|]. repeat split; auto.
    + rewrite upd_length; auto.
    + intros k Hk. unfold vfun. destruct (Nat.eq_dec k i) as [->|Hne].
      * rewrite nth_upd_eq by lia. rewrite Hri. symmetry. apply Us_range; auto.
      * rewrite nth_upd_neq by auto. apply H1. lia.
    + intros k Hk. destruct (Nat.eq_dec k i) as [->|Hne]; [|apply H2; lia].
      rewrite Hbeta in EB.
      transitivity (vfun yv i - (vfun yv i - qsum i (fun j => AL y l i j * Us u j) - Us u i))%Qc; [ring|]. rewrite EB. ring.
  - set (factor := (beta / aa)%Qc).
    destruct (ofor_inv (fun k l0 => lenL y n l0 /\
        forall r' c', (r' < n)%nat -> AL y l0 r' c' =
          if (Nat.eqb r' i && Nat.ltb c' k && inL y i c')%bool then (AL y l i c' + vfun r c' * factor)%Qc else AL y l r' c')
       (nn i (yp y)) i (fun k l0 =>
            rk <- rd r k ;; a <- getL y l0 i k ;; putL y l0 i k (a + rk * factor)%Qc) l) as (l' & E3 & HL' & H3).
    { auto. }
    { split; auto. intros r' c' Hr''. destruct (Nat.eqb_spec r' i); simpl; auto.
      destruct (Nat.ltb_spec c' (nn i (yp y))); simpl; auto.
      destruct (inL y i c') eqn:EI; auto. apply inL_spec in EI. lia. }
    { intros k l0 Hk (HL0 & H3). rewrite (rd_ok r k 0%Qc) by lia. cbn [obind].
      assert (EI : inL y i k = true) by (apply inL_spec; lia).
      rewrite (getL_ok _ _ V) by auto. cbn [obind].
      destruct (putL_ok _ _ V l0 i k (AL y l0 i k + nq k r * factor)%Qc HL0 Hi EI) as (l1 & E4 & HL1 & H4).
      exists l1. split; auto. split; auto. intros r' c' Hr''. rewrite H4 by auto.
      rewrite (H3 i k) by auto. rewrite Nat.eqb_refl, Nat.ltb_irrefl. cbn [andb].
      unfold updf. destruct (Nat.eqb_spec r' i) as [->|Hne]; cbn [andb].
      - destruct (Nat.eqb_spec c' k) as [->|Hnk]; cbn [andb].
        + assert (Lk : (k <? S k)%nat = true) by (apply Nat.ltb_lt; lia). rewrite Lk, EI. reflexivity.
        + rewrite H3 by auto. rewrite Nat.eqb_refl. cbn [andb].
          destruct (Nat.ltb_spec c' k); destruct (Nat.ltb_spec c' (S k)); cbn [andb]; auto; try lia.
      - rewrite H3 by auto. destruct (Nat.eqb_spec r' i); [lia|]. reflexivity. }
    rewrite E3. cbn [obind].
    set (U' := fun k => (AU y u i k + vfun s k * factor)%Qc).
    destruct (ofor_inv (fun k ur => lenU y n (fst ur) /\
        (forall r' c', (c' < n)%nat -> AU y (fst ur) r' c' =
          if (Nat.eqb r' i && Nat.ltb c' k && inU y i c')%bool then U' c' else AU y u r' c') /\
        snd ur = qsum k (fun j => if inU y i j then U' j * vfun s j else 0)%Qc)
       i (S (nn i (ys y))) (fun k ur =>
            qk <- rd (yq y) k ;;
            if Nat.leb qk i then
              sk <- rd s k ;; b <- getU y (fst ur) i k ;;
              let b' := (b + sk * factor)%Qc in
              u' <- putU y (fst ur) i k b' ;;
              Ret (u', (snd ur + b' * sk)%Qc)
            else Ret ur) (u, 0%Qc)) as (ur & E5 & HU' & H5 & H6).
    { lia. }
    { repeat split; auto.
      - intros r' c' Hc'. simpl. destruct (Nat.eqb_spec r' i); simpl; auto.
        destruct (Nat.ltb_spec c' i); simpl; auto.
        destruct (inU y i c') eqn:EI; auto. apply inU_spec in EI. lia.
      - simpl. symmetry. apply qsum_zero. intros k Hk. destruct (inU y i k) eqn:EI; auto. apply inU_spec in EI. lia. }
    { intros k ur Hk (HU0 & H5 & H6). rewrite (rd_q _ _ V) by lia. cbn [obind].
      destruct (Nat.leb_spec (nn k (yq y)) i).
      - rewrite (rd_ok s k 0%Qc) by lia. cbn [obind].
        assert (EI : inU y i k = true) by (apply inU_spec; lia).
        rewrite (getU_ok _ _ V) by (auto; lia). cbn [obind]. cbv zeta.
        destruct (putU_ok _ _ V (fst ur) i k (AU y (fst ur) i k + nq k s * factor)%Qc HU0 ltac:(lia) EI) as (u1 & E6 & HU1 & H7).
        rewrite E6. cbn [obind]. eexists. split; [reflexivity|]. cbn [fst snd].
        assert (EU : AU y (fst ur) i k = AU y u i k).
        { rewrite H5 by lia. rewrite Nat.eqb_refl, Nat.ltb_irrefl. reflexivity. }
        split; auto. split.
        + intros r' c' Hc'. rewrite H7 by auto. rewrite EU.
          unfold updf. destruct (Nat.eqb_spec r' i) as [->|Hne]; cbn [andb].
          * destruct (Nat.eqb_spec c' k) as [->|Hnk]; cbn [andb].
            -- assert (Lk : (k <? S k)%nat = true) by (apply Nat.ltb_lt; lia). rewrite Lk, EI. reflexivity.
            -- rewrite H5 by auto. rewrite Nat.eqb_refl. cbn [andb].
               destruct (Nat.ltb_spec c' k); destruct (Nat.ltb_spec c' (S k)); cbn [andb]; auto; try lia.
          * rewrite H5 by auto. destruct (Nat.eqb_spec r' i); [lia|]. reflexivity.
        + rewrite H6, EU. simpl. rewrite EI. reflexivity.
      - assert (EI : inU y i k = false). { destruct (inU y i k) eqn:EU; auto. apply inU_spec in EU. lia. }
        exists ur. split; auto. split; auto. split.
        + intros r' c' Hc'. rewrite H5 by auto. destruct (Nat.eqb_spec r' i) as [->|Hne]; cbn [andb]; auto.
          destruct (Nat.ltb_spec c' k); destruct (Nat.ltb_spec c' (S k)); cbn [andb]; auto; try lia.
          assert (c' = k) by lia. subst. rewrite EI. auto.
        + rewrite H6. simpl. rewrite EI. ring. }
    cbv zeta in E5 |- *. rewrite E5. cbn [obind]. rewrite wr_ok by lia. cbn [obind].
    eexists. split; [reflexivity|].
    destruct ur as [u' ri]. cbn [fst snd] in *.
    assert (HCov : cov u').
    { intros r' c' Hr'' Hc' Hlt. rewrite H5 by auto.
      destruct (Nat.eqb_spec r' i) as [->|Hne]; cbn [andb]; [|apply HC; auto].
      destruct (Nat.ltb_spec c' (S (nn i (ys y)))); cbn [andb]; [lia|]. apply HC; auto. }
    assert (UO : forall j, j <> i -> Us u' j = Us u j).
    { intros j Hj. unfold Us. apply qsum_ext. intros k Hk. rewrite H5 by auto.
      destruct (Nat.eqb_spec j i); [lia|]. reflexivity. }
    assert (UI : forall k, (k < S (nn i (ys y)))%nat ->
        (AU y u' i k * vfun s k = if inU y i k then U' k * vfun s k else 0)%Qc).
    { intros k Hk. rewrite H5 by lia. rewrite Nat.eqb_refl.
      assert (Lk : (k <? S (nn i (ys y)))%nat = true) by (apply Nat.ltb_lt; lia). rewrite Lk. cbn [andb].
      destruct (inU y i k) eqn:EI; auto. unfold AU. rewrite EI. ring. }
    assert (RI : ri = Us u' i).
    { rewrite H6, (Us_range u' i HCov Hi). apply qsum_ext. intros k Hk. symmetry. apply UI; auto. }
    assert (UI2 : Us u' i = (Us u i + factor * qsum (S (nn i (ys y))) a2)%Qc).
    { rewrite (Us_range u' i HCov Hi), (Us_range u i HC Hi), <- qsum_scale, <- qsum_add.
      apply qsum_ext. intros k Hk. rewrite UI by auto. unfold a2, U'.
      destruct (inU y i k) eqn:EI; [ring|]. unfold AU. rewrite EI. ring. }
    assert (LI : (qsum i (fun j => AL y l' i j * Us u j) =
                  qsum i (fun j => AL y l i j * Us u j) + factor * qsum i a1)%Qc).
    { rewrite <- qsum_scale, <- qsum_add. apply qsum_ext. intros k Hk. rewrite H3 by auto.
      rewrite Nat.eqb_refl. assert (Lk : (k <? i)%nat = true) by (apply Nat.ltb_lt; lia). rewrite Lk. cbn [andb].
      unfold a1. rewrite Hr' by auto.
      destruct (inL y i k) eqn:EI.
      - apply inL_spec in EI. destruct (Nat.leb_spec (nn i (yp y)) k); [ring|lia].
      - destruct (Nat.leb_spec (nn i (yp y)) k); [|ring].
        exfalso. assert (inL y i k = true) by (apply inL_spec; lia). congruence. }
    repeat split; auto.
    + rewrite upd_length; auto.
    + intros k Hk. unfold vfun. destruct (Nat.eq_dec k i) as [->|Hne].
      * rewrite nth_upd_eq by lia. auto.
      * rewrite nth_upd_neq by auto. rewrite UO by auto. apply H1. lia.
    + intros k Hk. destruct (Nat.eq_dec k i) as [->|Hne].
      * erewrite qsum_ext. 2:{ intros j Hj. rewrite UO by lia. reflexivity. }
        rewrite LI, UI2.
        assert (EF : (factor * aa = beta)%Qc) by (unfold factor; field; auto).
        transitivity (qsum i (fun j => AL y l i j * Us u j) + Us u i + factor * aa)%Qc; [unfold aa; ring|].
        rewrite EF, Hbeta. ring.
      * rewrite UO by auto. rewrite <- H2 by lia. f_equal. apply qsum_ext. intros j Hj.
        rewrite UO by lia. rewrite H3 by lia. destruct (Nat.eqb_spec k i); [lia|]. reflexivity.
Qed.
End Hart.

Lemma hart_ok st n A s yv : decomposed st n A -> covered st n ->
  (n <= length s)%nat -> (n <= length yv)%nat ->
  (forall i, (i < n)%nat -> exists k, (i <= k <= nn i (ys (ulay st)))%nat /\ (nn k (yq (ulay st)) <= i)%nat /\ vfun s k <> 0%Qc) ->
  exists st' A', secantUpdateHart st s yv = Ret st' /\ ulay st' = ulay st /\ decomposed st' n A' /\ covered st' n /\
    solves n A' (vfun s) (vfun yv).
Proof.
  intros ((V & HL & HU) & HF & HP) [Hd HC] Hs Hy HN.
  unfold secantUpdateHart, factorize. rewrite HF. cbn [obind]. rewrite (v_p _ _ V).
  destruct (ofor_inv (hinv (ulay st) n s yv) 0 n (hart_row (ulay st) s yv) (ul st, uu st, repeat 0%Qc n))
    as (((l & u) & r) & E & HL' & HU' & _ & HC' & H1 & H2).
  - lia.
  - repeat split; auto; try (intros; lia). apply repeat_length.
  - intros i x Hi HI. apply (hart_row_ok (ulay st) n s yv V Hs Hy Hd); auto. lia. apply HN. lia.
  - rewrite E. cbn [obind].
    set (st' := mkLu (ulay st) l u true).
    exists st', (fun r c => qsum n (fun k => Lof st' r k * Uof st' k c)%Qc).
    split; auto. split; auto. split; [|split].
    + split; [repeat split; auto; apply V|]. split; auto. intros r0 c0 _ _. reflexivity.
    + split; auto.
    + intros i Hi.
      transitivity (qsum n (fun c => qsum n (fun k => Lof st' i k * Uof st' k c * vfun s c)%Qc)).
      { apply qsum_ext. intros c Hc. rewrite <- qsum_scale_r. auto. }
      rewrite qsum_swap.
      transitivity (qsum n (fun k => Lof st' i k * Us (ulay st) n s u k)%Qc).
      { apply qsum_ext. intros k Hk. unfold Us. rewrite <- qsum_scale. apply qsum_ext. intros. unfold Uof, st'. simpl. ring. }
      rewrite (qsum_trunc n (S i)).
      * simpl. rewrite <- H2 by auto. unfold Lof at 2, withdiag. rewrite Nat.eqb_refl.
        erewrite (qsum_ext i). 2:{ intros k Hk. unfold Lof, withdiag. destruct (Nat.eqb_spec i k); [lia|]. reflexivity. }
        unfold st'. simpl. ring.
      * lia.
      * intros k Hk. unfold Lof, withdiag. destruct (Nat.eqb_spec i k); [lia|]. rewrite AL_zero by lia. ring.
Qed.

(** ** setMatrixFast *)
Definition in_profile (st : lu) r c : bool := if Nat.leb r c then inU (ulay st) r c else inL (ulay st) r c.

Lemma fast_fill_some y n e : valid_layout y n ->
  (forall r c v, In ((r, c), v) e -> (r < n)%nat /\ (c < n)%nat /\ (if Nat.leb r c then inU y r c else inL y r c) = true) ->
  forall l u, lenL y n l -> lenU y n u ->
  exists lu', ofold (fill_step y) e (l, u) = Ret lu' /\ fast_fill y e (l, u) = Ret (Some lu').
Proof.
  intro V. induction e as [|((r,c),v) e IH]; intros HIn l u HL HU; simpl; [eauto|].
  destruct (HIn r c v) as (Hr & Hc & HP); [left; auto|].
  unfold setLU. destruct (Nat.leb_spec r c) as [Hle|Hgt].
  - destruct (Nat.ltb_spec c r); [lia|].
    destruct (putU_ok _ _ V u r c v HU Hc HP) as (u' & E & HU' & _).
    pose proof E as E'. unfold putU in E'. rewrite (rd_q _ _ V), (rd_au _ _ V) in E' by auto. cbn [obind] in E'.
    apply inU_spec in HP.
    destruct (Nat.leb_spec r c); [|lia]. rewrite (rd_q _ _ V) by auto. cbn [obind].
    destruct (Nat.leb_spec (nn c (yq y)) r); [|lia]. cbn [andb] in E'. rewrite (rd_au _ _ V) by auto. cbn [obind fst snd].
    rewrite E', E. cbn [obind]. apply IH; auto. intros; eapply HIn; right; eauto.
  - destruct (Nat.ltb_spec c r); [|lia].
    destruct (putL_ok _ _ V l r c v HL Hr HP) as (l' & E & HL' & _).
    pose proof E as E'. unfold putL in E'. rewrite (rd_p _ _ V), (rd_al _ _ V) in E' by auto. cbn [obind] in E'.
    apply inL_spec in HP.
    destruct (Nat.ltb_spec c r); [|lia]. rewrite (rd_p _ _ V) by auto. cbn [obind].
    destruct (Nat.leb_spec (nn r (yp y)) c); [|lia]. cbn [andb] in E'. rewrite (rd_al _ _ V) by auto. cbn [obind fst snd].
    rewrite E', E. cbn [obind]. apply IH; auto. intros; eapply HIn; right; eauto.
Qed.

Lemma setMatrixFast_inprofile st n e : wf st n -> distinct_keys e ->
  (forall r c, stored e r c -> (r < n)%nat /\ (c < n)%nat /\ in_profile st r c = true) ->
  exists st', setMatrixFast st e = Ret st' /\ ulay st' = ulay st /\ holds st' n (mval e).
Proof.
  intros (V & HL & HU) ND HIn. unfold setMatrixFast.
  assert (HIn' : forall r c v, In ((r, c), v) e -> (r < n)%nat /\ (c < n)%nat /\
     (if Nat.leb r c then inU (ulay st) r c else inL (ulay st) r c) = true).
  { intros r c v H. apply HIn. exists v; auto. }
  assert (HLz : lenL (ulay st) n (repeat 0%Qc (length (ul st)))) by (unfold lenL; rewrite repeat_length; auto).
  assert (HUz : lenU (ulay st) n (repeat 0%Qc (length (uu st)))) by (unfold lenU; rewrite repeat_length; auto).
  destruct (fast_fill_some _ n e V HIn' _ _ HLz HUz) as (lu' & E1 & E2).
  destruct (fill_ok _ n V e _ _ HLz HUz ND HIn') as (lu2 & E3 & HL2 & HU2 & H).
  rewrite E1 in E3. injection E3 as <-. rewrite E2. cbn [obind]. destruct lu' as [l u]. simpl in *.
  eexists. split; [reflexivity|]. split; auto. unfold holds. simpl. repeat split; auto; try apply V.
  intros r c Hr Hc. destruct (H r c Hr Hc) as [Ha Hb].
  destruct (stored_dec e r c) as [Hs|Hs]; [auto|].
  rewrite Hb by auto. rewrite (A0_zero _ n) by auto. symmetry. apply mval_notin; auto.
Qed.

Lemma fast_fill_none y n e : valid_layout y n ->
  (forall r c, stored e r c -> (r < n)%nat /\ (c < n)%nat) ->
  (exists r c, stored e r c /\ (if Nat.leb r c then inU y r c else inL y r c) = false) ->
  forall l u, lenL y n l -> lenU y n u -> fast_fill y e (l, u) = Ret None.
Proof.
  intro V. induction e as [|((r,c),v) e IH]; intros HB (r0 & c0 & (v0 & H0) & HF) l u HL HU; simpl; [destruct H0|].
  destruct (HB r c) as (Hr & Hc); [exists v; left; auto|].
  assert (HT : (if Nat.leb r c then inU y r c else inL y r c) = true ->
     exists r0 c0, stored e r0 c0 /\ (if Nat.leb r0 c0 then inU y r0 c0 else inL y r0 c0) = false).
  { intro HT. destruct H0 as [H0|H0]; [inversion H0; subst; congruence|]. exists r0, c0. split; auto. exists v0; auto. }
  unfold setLU. destruct (Nat.leb_spec r c) as [Hle|Hgt].
  - destruct (Nat.ltb_spec c r); [lia|].
    rewrite (rd_q _ _ V) by auto. cbn [obind].
    destruct (Nat.leb_spec (nn c (yq y)) r); [|auto]. rewrite (rd_au _ _ V) by auto. cbn [obind fst snd].
    assert (HP : inU y r c = true) by (apply inU_spec; lia).
    destruct (putU_ok _ _ V u r c v HU Hc HP) as (u' & E & HU' & _).
    unfold putU in E. rewrite (rd_q _ _ V), (rd_au _ _ V) in E by auto. cbn [obind] in E.
    change (Nat.leb r c && Nat.leb (nn c (yq y)) r)%bool with (inU y r c) in E. rewrite HP in E. rewrite E. cbn [obind].
    apply IH; auto. intros r1 c1 (v1 & Hs). apply HB. exists v1. right; auto.
  - destruct (Nat.ltb_spec c r); [|lia].
    rewrite (rd_p _ _ V) by auto. cbn [obind].
    destruct (Nat.leb_spec (nn r (yp y)) c); [|auto]. rewrite (rd_al _ _ V) by auto. cbn [obind fst snd].
    assert (HP : inL y r c = true) by (apply inL_spec; lia).
    destruct (putL_ok _ _ V l r c v HL Hr HP) as (l' & E & HL' & _).
    unfold putL in E. rewrite (rd_p _ _ V), (rd_al _ _ V) in E by auto. cbn [obind] in E.
    change (Nat.ltb c r && Nat.leb (nn r (yp y)) c)%bool with (inL y r c) in E. rewrite HP in E. rewrite E. cbn [obind].
    apply IH; auto. intros r1 c1 (v1 & Hs). apply HB. exists v1. right; auto.
Qed.

Lemma setMatrixFast_fallback st n e : wf st n ->
  (forall r c, stored e r c -> (r < n)%nat /\ (c < n)%nat) ->
  (exists r c, stored e r c /\ in_profile st r c = false) ->
  setMatrixFast st e = setMatrix e.
Proof.
  intros (V & HL & HU) HB HE. unfold setMatrixFast.
  rewrite (fast_fill_none _ n e V HB HE).
  - reflexivity.
  - unfold lenL; rewrite repeat_length; auto.
  - unfold lenU; rewrite repeat_length; auto.
Qed.

(** ** luToMatrix *)
Lemma mval_app e1 e2 r c : ~ stored e1 r c -> mval (e1 ++ e2) r c = mval e2 r c.
Proof.
  induction e1 as [|((r',c'),v') e IH]; simpl; intros H; auto.
  destruct (Nat.eqb_spec r' r); destruct (Nat.eqb_spec c' c); simpl;
    try (apply IH; intros (v & Hv); apply H; exists v; right; auto).
  subst. exfalso. apply H. exists v'. left. auto.
Qed.
Lemma mval_app_l e1 e2 r c : stored e1 r c -> mval (e1 ++ e2) r c = mval e1 r c.
Proof.
  induction e1 as [|((r',c'),v') e IH]; simpl; intros (v & H); [destruct H|].
  destruct (Nat.eqb_spec r' r); destruct (Nat.eqb_spec c' c); simpl; auto;
    apply IH; destruct H as [H|H]; try congruence; exists v; auto.
Qed.

Lemma luToMatrix_ok st n A : represents st n A ->
  (forall r c, (r < n)%nat -> (c < n)%nat -> (nn r (ys (ulay st)) < c)%nat -> A r c = 0%Qc) ->
  exists e, luToMatrix st = Ret e /\
    (forall r c, (r < n)%nat -> (c < n)%nat -> mval e r c = A r c) /\
    (forall r c v, In ((r, c), v) e -> (r < n)%nat /\ (c < n)%nat /\ v <> 0%Qc).
Proof.
  intros HR HC.
  assert (V : valid_layout (ulay st) n) by (destruct HR as [(V & _)|((V & _) & _)]; auto).
  assert (HZ : forall r c, (r < n)%nat -> (c < n)%nat -> (c < nn r (yp (ulay st)))%nat -> A r c = 0%Qc).
  { intros r c Hr Hc Hlt. pose proof (elementAt_ok st n A r c HR Hr Hc) as E.
    unfold elementAt in E. rewrite (rd_p _ _ V), (rd_q _ _ V) in E by auto. cbn [obind] in E.
    pose proof (v_pi _ _ V r Hr).
    destruct (Nat.ltb_spec c r); [|lia]. destruct (Nat.leb_spec (nn r (yp (ulay st))) c); [lia|].
    destruct (Nat.leb_spec r c); [lia|]. cbn [andb orb] in E. destruct (ufact st); injection E; auto. }
  unfold luToMatrix. rewrite (v_p _ _ V).
  set (good := fun (R C : nat) (e : entries) =>
     (forall r c, (r < n)%nat -> (c < n)%nat -> (r < R \/ r = R /\ c < C)%nat -> mval e r c = A r c) /\
     (forall r c v, In ((r, c), v) e -> (r < R \/ r = R /\ c < C)%nat /\ (r < n)%nat /\ (c < n)%nat /\ v <> 0%Qc)).
  destruct (ofor_inv (fun R e => good R 0%nat e) 0 n (fun r acc =>
    pr <- rd (yp (ulay st)) r ;; sr <- rd (ys (ulay st)) r ;;
    ofor pr (S sr) (fun c acc' =>
      x <- elementAt st r c ;;
      Ret (if Qceqb x 0 then acc' else acc' ++ [((r, c), x)])) acc) []) as (e & E & G1 & G2).
  - lia.
  - split; [intros; lia|]. intros r c v [].
  - intros R e HR0 [G1 G2]. rewrite (rd_p _ _ V), (rd_s _ _ V) by lia. cbn [obind].
    set (pr := nn R (yp (ulay st))). set (sr := nn R (ys (ulay st))).
    assert (G0 : good R pr e).
    { split.
      - intros r c Hr Hc [Hlt|[-> Hlt]]; [apply G1; auto|].
        rewrite mval_notin. symmetry. apply HZ; auto. intros (v & Hv). apply G2 in Hv. lia.
      - intros r c v Hv. specialize (G2 r c v Hv). intuition lia. }
    assert (FIN : forall C e', (sr < C)%nat -> good R C e' -> good (S R) 0%nat e').
    { intros C e' HC' [K1 K2]. split.
      - intros r c Hr Hc Hlt. destruct (Nat.eq_dec r R) as [->|].
        + destruct (Nat.lt_ge_cases c C); [apply K1; auto|].
          rewrite mval_notin. symmetry. apply HC; auto. unfold sr in *; lia. intros (v & Hv). apply K2 in Hv. lia.
        + apply K1; auto. lia.
      - intros r c v Hv. specialize (K2 r c v Hv). intuition lia. }
    destruct (Nat.le_gt_cases pr (S sr)) as [Hle|Hgt].
    + destruct (ofor_inv (fun C e' => good R C e') pr (S sr) (fun c acc' =>
         x <- elementAt st R c ;; Ret (if Qceqb x 0 then acc' else acc' ++ [((R, c), x)])) e) as (e' & E' & G').
      * auto.
      * auto.
      * intros c e0 Hc [K1 K2]. pose proof (v_si _ _ V R ltac:(lia)).
        rewrite (elementAt_ok st n A R c HR) by (unfold sr in *; lia). cbn [obind].
        eexists. split; [reflexivity|].
        destruct (Qceqb (A R c) 0) eqn:EQ.
        -- apply Qceqb_eq in EQ. split.
           ++ intros r0 c0 Hr0 Hc0 Hlt. destruct (Nat.eq_dec r0 R) as [->|]; [destruct (Nat.eq_dec c0 c) as [->|]|].
              ** rewrite EQ. apply mval_notin. intros (v & Hv). apply K2 in Hv. lia.
              ** apply K1; auto. lia.
              ** apply K1; auto. lia.
           ++ intros r0 c0 v Hv. specialize (K2 r0 c0 v Hv). intuition lia.
        -- apply Qceqb_neq in EQ. split.
           ++ intros r0 c0 Hr0 Hc0 Hlt. destruct (stored_dec e0 r0 c0) as [Hs|Hs].
              ** rewrite mval_app_l by auto. apply K1; auto. destruct Hs as (v & Hv). apply K2 in Hv. tauto.
              ** rewrite mval_app by auto. simpl.
                 destruct (Nat.eqb_spec R r0); destruct (Nat.eqb_spec c c0); simpl; subst; auto;
                 rewrite <- K1 by (auto; lia); symmetry; apply mval_notin; auto.
           ++ intros r0 c0 v Hv. apply in_app_or in Hv. destruct Hv as [Hv|[Hv|[]]].
              ** specialize (K2 r0 c0 v Hv). intuition lia.
              ** inversion Hv; subst. repeat split; auto; try (unfold sr in *; lia).
      * exists e'. split; auto. apply (FIN (S sr)); auto.
    + exists e. split.
      * unfold ofor. replace (S sr - pr)%nat with 0%nat by lia. reflexivity.
      * apply (FIN pr); auto. lia.
  - exists e. split; auto. split.
    + intros r c Hr Hc. apply G1; auto.
    + intros r c v Hv. specialize (G2 r c v Hv). tauto.
Qed.
