(** LUFacts6.v - secantUpdateProportional. *)
From Coq Require Import List Arith Lia ZArith QArith Qcanon Bool.
Require Import Verif.Base Verif.BaseFacts Verif.LUModel Verif.LUSpec Verif.LUFacts Verif.LUFacts2 Verif.LUFacts3 Verif.LUFacts4 Verif.LUFacts5 Verif.RkFacts3.
Import ListNotations.

Section Prop_.
Variables (y : layout) (n : nat) (s yv l0 u0 : list Qc).
Hypothesis V : valid_layout y n.
Hypothesis Hs : (n <= length s)%nat.
Hypothesis Hy : (n <= length yv)%nat.
Hypothesis Hdiag : forall i, (i < n)%nat -> (i <= nn i (ys y))%nat.
Notation Us := (Us y n s).
Notation cov := (cov y n).

Definition crow (u' : list Qc) i : Qc := (qsum i (fun k => AL y l0 i k * Us u' k) + Us u0 i)%Qc.
Definition prow (l u : list Qc) i : Prop :=
  exists f, (vfun yv i = 0 -> f = 1)%Qc /\ (vfun yv i <> 0 -> crow u i <> 0 /\ f = vfun yv i / crow u i + 1)%Qc /\
    (forall k, (k < i)%nat -> AL y l i k = f * AL y l0 i k)%Qc /\ (forall k, (i <= k < n)%nat -> AU y u i k = f * AU y u0 i k)%Qc.
Definition pinv (i : nat) (st : list Qc * list Qc * list Qc) : Prop :=
  let '(l, u, r) := st in
  lenL y n l /\ lenU y n u /\ length r = n /\ cov u /\
  (forall k, (k < i)%nat -> vfun r k = Us u k) /\
  (forall k, (k < i)%nat -> prow l u k) /\
  (forall k c, (i <= k < n)%nat -> AL y l k c = AL y l0 k c /\ ((c < n)%nat -> AU y u k c = AU y u0 k c)).

Lemma prop_row_ok i st : (i < n)%nat -> pinv i st ->
  (exists st', prop_row y s yv i st = Ret st' /\ pinv (S i) st') \/ (prop_row y s yv i st = Throw /\ exists j, (j < n)%nat /\ vfun yv j <> 0%Qc).
Proof.
  intros Hi HI. destruct st as [[l u] r]. destruct HI as (HL & HU & Hr & HC & H1 & H2 & HO).
  pose proof (v_pi _ _ V i Hi) as Hp. pose proof (v_si _ _ V i Hi) as Hsi. pose proof (Hdiag i Hi) as Hd.
  pose proof (v_qi _ _ V i Hi) as Hqi.
  assert (HLi : forall c, AL y l i c = AL y l0 i c) by (intros c; apply HO; lia).
  assert (HUi : forall c, (c < n)%nat -> AU y u i c = AU y u0 i c) by (intros c Hc; apply HO; lia).
  unfold prop_row. rewrite (rd_p _ _ V), (rd_s _ _ V) by auto. cbn [obind].
  rewrite (rd_ok yv i 0%Qc) by lia. cbn [obind]. fold (vfun yv i).
  destruct (ofor_inv (fun k acc => acc = qsum k (fun j => AL y l i j * vfun r j)%Qc)
     (nn i (yp y)) i (fun k acc => rk <- rd r k ;; a <- getL y l i k ;; Ret (acc + a * rk)%Qc) 0%Qc) as (cl & E1 & Hcl).
  { auto. }
  { symmetry. apply qsum_zero. intros k Hk. rewrite AL_out by lia. ring. }
  { intros k acc Hk ->. rewrite (rd_ok r k 0%Qc) by lia. cbn [obind].
    rewrite (getL_ok _ _ V) by (auto; apply inL_spec; lia). cbn [obind]. eexists. split; [reflexivity|]. reflexivity. }
  rewrite E1. cbn [obind].
  destruct (ofor_inv (fun k acc => acc = qsum k (fun j => AU y u i j * vfun s j)%Qc)
     i (S (nn i (ys y))) (fun k acc =>
          qk <- rd (yq y) k ;;
          if Nat.leb qk i then sk <- rd s k ;; b <- getU y u i k ;; Ret (acc + b * sk)%Qc
          else Ret acc) 0%Qc) as (cu & E2 & Hcu).
  { lia. }
  { symmetry. apply qsum_zero. intros k Hk. rewrite AU_zero by lia. ring. }
  { intros k acc Hk ->. rewrite (rd_q _ _ V) by lia. cbn [obind].
    destruct (Nat.leb_spec (nn k (yq y)) i).
    - rewrite (rd_ok s k 0%Qc) by lia. cbn [obind].
      rewrite (getU_ok _ _ V) by (auto; try apply inU_spec; lia). cbn [obind]. eexists. split; [reflexivity|]. reflexivity.
    - eexists. split; [reflexivity|]. simpl. rewrite (AU_out _ _ i k) by lia. ring. }
  rewrite E2. cbn [obind].
  assert (Hcu' : cu = Us u i) by (rewrite Hcu; symmetry; apply (Us_range y n s yv); auto).
  assert (UU0 : Us u i = Us u0 i) by (apply qsum_ext; intros k Hk; rewrite HUi by auto; reflexivity).
  assert (Hc : forall u', (forall j, (j < i)%nat -> Us u' j = Us u j) -> (cl + cu)%Qc = crow u' i).
  { intros u' Hu'. unfold crow. rewrite <- UU0, <- Hcu', Hcl. f_equal. apply qsum_ext. intros k Hk. rewrite HLi, H1, Hu' by auto. reflexivity. }
  cbv zeta. destruct (Qceqb (vfun yv i) 0) eqn:EB.
  - apply Qceqb_eq in EB. rewrite wr_ok by lia. cbn [obind]. left. eexists. split; [reflexivity|]. unfold pinv.
    split; [exact HL|]. split; [exact HU|]. split; [rewrite upd_length; auto|]. split; [exact HC|]. split; [|split].
    + intros k Hk. unfold vfun. destruct (Nat.eq_dec k i) as [->|Hne].
      * rewrite nth_upd_eq by lia. exact Hcu'.
      * rewrite nth_upd_neq by auto. apply H1. lia.
    + intros k Hk. destruct (Nat.eq_dec k i) as [->|Hne]; [|apply H2; lia].
      exists 1%Qc. split; [reflexivity|]. split; [intros Q; contradiction|]. split; intros j Hj; [rewrite HLi|rewrite HUi by lia]; ring.
    + intros k c Hk. apply HO. lia.
  - assert (YN : vfun yv i <> 0%Qc) by (intros Q; rewrite Q in EB; discriminate EB).
    destruct (Qceqb (cl + cu) 0) eqn:EC; [right; split; [reflexivity|exists i; auto]|].
    assert (CN : (cl + cu)%Qc <> 0%Qc) by (intros Q; rewrite Q in EC; discriminate EC).
    set (factor := (vfun yv i / (cl + cu) + 1)%Qc).
    destruct (ofor_inv (fun k l1 => lenL y n l1 /\
        forall r' c', (r' < n)%nat -> AL y l1 r' c' =
          if (Nat.eqb r' i && Nat.ltb c' k && inL y i c')%bool then (AL y l i c' * factor)%Qc else AL y l r' c')
       (nn i (yp y)) i (fun k l1 => a <- getL y l1 i k ;; putL y l1 i k (a * factor)%Qc) l) as (l' & E3 & HL' & H3).
    { auto. }
    { split; auto. intros r' c' Hr''. destruct (Nat.eqb_spec r' i); simpl; auto.
      destruct (Nat.ltb_spec c' (nn i (yp y))); simpl; auto.
      destruct (inL y i c') eqn:EI; auto. apply inL_spec in EI. lia. }
    { intros k l1 Hk (HL0 & H3).
      assert (EI : inL y i k = true) by (apply inL_spec; lia).
      rewrite (getL_ok _ _ V) by auto. cbn [obind].
      destruct (putL_ok _ _ V l1 i k (AL y l1 i k * factor)%Qc HL0 Hi EI) as (l2 & E4 & HL1 & H4).
      exists l2. split; auto. split; auto. intros r' c' Hr''. rewrite H4 by auto.
      rewrite (H3 i k) by auto. rewrite Nat.eqb_refl, Nat.ltb_irrefl. cbn [andb].
      unfold updf. destruct (Nat.eqb_spec r' i) as [->|Hne]; cbn [andb].
      - destruct (Nat.eqb_spec c' k) as [->|Hnk]; cbn [andb].
        + assert (Lk : (k <? S k)%nat = true) by (apply Nat.ltb_lt; lia). rewrite Lk, EI. reflexivity.
        + rewrite H3 by auto. rewrite Nat.eqb_refl. cbn [andb].
          destruct (Nat.ltb_spec c' k); destruct (Nat.ltb_spec c' (S k)); cbn [andb]; auto; try lia.
      - rewrite H3 by auto. destruct (Nat.eqb_spec r' i); [lia|]. reflexivity. }
    rewrite E3. cbn [obind].
    set (U' := fun k => (AU y u i k * factor)%Qc).
    destruct (ofor_inv (fun k ur => lenU y n (fst ur) /\
        (forall r' c', (c' < n)%nat -> AU y (fst ur) r' c' =
          if (Nat.eqb r' i && Nat.ltb c' k && inU y i c')%bool then U' c' else AU y u r' c') /\
        snd ur = qsum k (fun j => if inU y i j then U' j * vfun s j else 0)%Qc)
       i (S (nn i (ys y))) (fun k ur =>
            qk <- rd (yq y) k ;;
            if Nat.leb qk i then
              sk <- rd s k ;; b <- getU y (fst ur) i k ;;
              let b' := (b * factor)%Qc in
              u' <- putU y (fst ur) i k b' ;;
              Ret (u', (snd ur + b' * sk)%Qc)
            else Ret ur) (u, 0%Qc)) as (ur & E5 & HU' & H5 & H6).
    { lia. }
    { repeat split; auto.
      - intros r' c' Hc'. simpl. destruct (Nat.eqb_spec r' i); simpl; auto.
        destruct (Nat.ltb_spec c' i); simpl; auto.
        destruct (inU y i c') eqn:EI; auto. apply inU_spec in EI. lia.
      - simpl. symmetry. apply qsum_zero. intros k Hk. destruct (inU y i k) eqn:EI; auto. apply inU_spec in EI. lia. }
    { intros k ur Hk (HU0 & H5 & H6). rewrite (rd_q _ _ V) by lia. cbn [obind].
      destruct (Nat.leb_spec (nn k (yq y)) i).
      - rewrite (rd_ok s k 0%Qc) by lia. cbn [obind].
        assert (EI : inU y i k = true) by (apply inU_spec; lia).
        rewrite (getU_ok _ _ V) by (auto; lia). cbn [obind]. cbv zeta.
        destruct (putU_ok _ _ V (fst ur) i k (AU y (fst ur) i k * factor)%Qc HU0 ltac:(lia) EI) as (u1 & E6 & HU1 & H7).
        rewrite E6. cbn [obind]. eexists. split; [reflexivity|]. cbn [fst snd].
        assert (EU : AU y (fst ur) i k = AU y u i k).
        { rewrite H5 by lia. rewrite Nat.eqb_refl, Nat.ltb_irrefl. reflexivity. }
        split; auto. split.
        + intros r' c' Hc'. rewrite H7 by auto. rewrite EU.
          unfold updf. destruct (Nat.eqb_spec r' i) as [->|Hne]; cbn [andb].
          * destruct (Nat.eqb_spec c' k) as [->|Hnk]; cbn [andb].
            -- assert (Lk : (k <? S k)%nat = true) by (apply Nat.ltb_lt; lia). rewrite Lk, EI. reflexivity.
            -- rewrite H5 by auto. rewrite Nat.eqb_refl. cbn [andb].
               destruct (Nat.ltb_spec c' k); destruct (Nat.ltb_spec c' (S k)); cbn [andb]; auto; try lia.
          * rewrite H5 by auto. destruct (Nat.eqb_spec r' i); [lia|]. reflexivity.
        + rewrite H6, EU. simpl. rewrite EI. reflexivity.
      - assert (EI : inU y i k = false). { destruct (inU y i k) eqn:EU; auto. apply inU_spec in EU. lia. }
        exists ur. split; auto. split; auto. split.
        + intros r' c' Hc'. rewrite H5 by auto. destruct (Nat.eqb_spec r' i) as [->|Hne]; cbn [andb]; auto.
          destruct (Nat.ltb_spec c' k); destruct (Nat.ltb_spec c' (S k)); cbn [andb]; auto; try lia.
          assert (c' = k) by lia. subst. rewrite EI. auto.
        + rewrite H6. simpl. rewrite EI. ring. }
    cbv zeta in E5 |- *. rewrite E5. cbn [obind]. rewrite wr_ok by lia. cbn [obind].
    left. eexists. split; [reflexivity|].
    destruct ur as [u' ri]. cbn [fst snd] in *.
    assert (HCov : cov u').
    { intros r' c' Hr'' Hc' Hlt. rewrite H5 by auto.
      destruct (Nat.eqb_spec r' i) as [->|Hne]; cbn [andb]; [|apply HC; auto].
      destruct (Nat.ltb_spec c' (S (nn i (ys y)))); cbn [andb]; [lia|]. apply HC; auto. }
    assert (UO : forall j, j <> i -> Us u' j = Us u j).
    { intros j Hj. apply qsum_ext. intros k Hk. rewrite H5 by auto.
      destruct (Nat.eqb_spec j i); [lia|]. reflexivity. }
    assert (UI : forall k, (k < n)%nat -> AU y u' i k = (factor * AU y u0 i k)%Qc).
    { intros k Hk. rewrite <- HUi by auto. rewrite H5 by lia. rewrite Nat.eqb_refl. cbn [andb].
      destruct (Nat.ltb_spec k (S (nn i (ys y)))); cbn [andb]; [|rewrite (HC i k) by lia; ring].
      destruct (inU y i k) eqn:EI; [unfold U'; ring|]. unfold AU. rewrite EI. ring. }
    assert (LI : forall k, (k < i)%nat -> AL y l' i k = (factor * AL y l0 i k)%Qc).
    { intros k Hk. rewrite <- HLi. rewrite H3 by lia. rewrite Nat.eqb_refl. assert (Lk : (k <? i)%nat = true) by (apply Nat.ltb_lt; lia). rewrite Lk. cbn [andb].
      destruct (inL y i k) eqn:EI; [ring|]. unfold AL. rewrite EI. ring. }
    assert (RI : ri = Us u' i).
    { rewrite H6, (Us_range y n s yv V Hs Hy u' i HCov Hi). apply qsum_ext. intros k Hk. rewrite H5 by lia. rewrite Nat.eqb_refl.
      assert (Lk : (k <? S (nn i (ys y)))%nat = true) by (apply Nat.ltb_lt; lia). rewrite Lk. cbn [andb].
      destruct (inU y i k) eqn:EI; auto. unfold AU. rewrite EI. ring. }
    assert (CR : forall j, (j <= i)%nat -> crow u' j = crow u j).
    { intros j Hj. unfold crow. f_equal. apply qsum_ext. intros k Hk. rewrite UO by lia. reflexivity. }
    unfold pinv. split; [exact HL'|]. split; [exact HU'|]. split; [rewrite upd_length; auto|]. split; [exact HCov|]. split; [|split].
    + intros k Hk. unfold vfun. destruct (Nat.eq_dec k i) as [->|Hne].
      * rewrite nth_upd_eq by lia. auto.
      * rewrite nth_upd_neq by auto. rewrite UO by auto. apply H1. lia.
    + intros k Hk. destruct (Nat.eq_dec k i) as [->|Hne].
      * exists factor. split; [intros Q; contradiction|]. split.
        { intros _. rewrite <- (Hc u') by (intros j Hj; apply UO; lia). split; [exact CN|reflexivity]. }
        split; intros j Hj; [apply LI; lia|apply UI; lia].
      * destruct (H2 k ltac:(lia)) as (f & F1 & F2 & F3 & F4). exists f. rewrite CR by lia.
        split; [exact F1|]. split; [exact F2|]. split; intros j Hj.
        -- rewrite H3 by lia. destruct (Nat.eqb_spec k i); [lia|]. apply F3; auto.
        -- rewrite H5 by lia. destruct (Nat.eqb_spec k i); [lia|]. apply F4; auto.
    + intros k c Hk. rewrite H3 by lia. destruct (Nat.eqb_spec k i); [lia|]. cbn [andb]. split; [apply HO; lia|].
      intros Hc'. rewrite H5 by auto. destruct (Nat.eqb_spec k i); [lia|]. cbn [andb]. apply HO; auto. lia.
Qed.
End Prop_.

Lemma prop_ok st n A s yv : decomposed st n A -> covered st n -> (n <= length s)%nat -> (n <= length yv)%nat ->
  (secantUpdateProportional st s yv = Throw /\ exists i, (i < n)%nat /\ vfun yv i <> 0%Qc) \/
  exists st' A', secantUpdateProportional st s yv = Ret st' /\ ulay st' = ulay st /\ decomposed st' n A' /\
    forall i, (i < n)%nat -> proportional_row n (vfun s) (vfun yv) (Lof st) (Uof st) (Lof st') (Uof st') i.
Proof.
  intros ((V & HL & HU) & HF & HP) [Hd HC] Hs Hy.
  unfold secantUpdateProportional, factorize. rewrite HF. cbn [obind]. rewrite (v_p _ _ V).
  destruct (ofor_inv_gen (pinv (ulay st) n s yv (ul st) (uu st)) (exists i, (i < n)%nat /\ vfun yv i <> 0%Qc) 0 n
     (prop_row (ulay st) s yv) (ul st, uu st, repeat 0%Qc n)) as [(((l & u) & r) & E & HL' & HU' & _ & HC' & H1 & H2 & H3)|[E F]].
  - lia.
  - unfold pinv. split; [exact HL|]. split; [exact HU|]. split; [apply repeat_length|]. split; [exact HC|]. split; [intros; lia|]. split; [intros; lia|]. auto.
  - intros i x Hi HI. apply (prop_row_ok (ulay st) n s yv _ _ V Hs Hy Hd); auto. lia.
  - right. rewrite E. cbn [obind]. set (st' := mkLu (ulay st) l u true).
    exists st', (fun r c => qsum n (fun k => Lof st' r k * Uof st' k c)%Qc). split; auto. split; auto. split.
    + split; [repeat split; auto; apply V|]. split; auto. intros r0 c0 _ _. reflexivity.
    + intros i Hi. destruct (H2 i Hi) as (f & F1 & F2 & F3 & F4). exists f.
      assert (EQ : row_image n (vfun s) (Lof st) (Uof st) (Uof st') i = crow (ulay st) n s (ul st) (uu st) u i).
      { unfold row_image, crow, Us. f_equal. apply qsum_ext. intros k Hk. unfold Lof, withdiag. destruct (Nat.eqb_spec i k); [lia|]. reflexivity. }
      rewrite EQ. split; [exact F1|]. split; [exact F2|]. split; [|exact F4].
      intros k Hk. unfold Lof, withdiag. destruct (Nat.eqb_spec i k); [lia|]. apply F3; auto.
  - left. rewrite E. split; [reflexivity|exact F].
Qed.

(** What the product of the updated matrix by s is. *)
Lemma unit_lower_row n L v i : unit_lower n L -> (i < n)%nat -> (qsum n (fun k => L i k * v k) = qsum i (fun k => L i k * v k) + v i)%Qc.
Proof.
  intros HL Hi. rewrite (qsum_trunc n (S i) (fun k => L i k * v k)%Qc) by (try lia; intros k Hk; rewrite (proj2 (HL i k Hi ltac:(lia))) by lia; ring).
  simpl. rewrite (proj1 (HL i i Hi Hi) eq_refl). ring.
Qed.
Lemma prop_image n L U L' U' A' s y : unit_lower n L -> unit_lower n L' -> upper n U -> upper n U' -> is_product n L' U' A' ->
  forall i, (i < n)%nat -> proportional_row n s y L U L' U' i -> (qsum n (fun c => A' i c * s c) = y i + row_image n s L U U' i)%Qc.
Proof.
  intros HL HL' HU HU' HP i Hi (f & F1 & F2 & F3 & F4).
  assert (E : (qsum n (fun c => A' i c * s c) = qsum i (fun k => L' i k * qsum n (fun c => U' k c * s c)) + qsum n (fun c => U' i c * s c))%Qc).
  { rewrite <- (unit_lower_row n L' (fun k => qsum n (fun c => U' k c * s c))%Qc i HL' Hi).
    transitivity (qsum n (fun c => qsum n (fun k => L' i k * (U' k c * s c))))%Qc.
    - apply qsum_ext. intros c Hc. rewrite <- (HP i c Hi Hc), Qcmult_comm, <- qsum_scale. apply qsum_ext. intros k Hk. ring.
    - rewrite qsum_swap. apply qsum_ext. intros k Hk. rewrite qsum_scale. reflexivity. }
  assert (E2 : (qsum n (fun c => U' i c * s c) = f * qsum n (fun c => U i c * s c))%Qc).
  { rewrite <- qsum_scale. apply qsum_ext. intros c Hc. destruct (Nat.lt_ge_cases c i) as [Q|Q].
    - rewrite (HU' i c Hi Hc Q), (HU i c Hi Hc Q). ring.
    - rewrite F4 by lia. ring. }
  assert (E1 : (qsum i (fun k => L' i k * qsum n (fun c => U' k c * s c)) = f * qsum i (fun k => L i k * qsum n (fun c => U' k c * s c)))%Qc).
  { rewrite <- qsum_scale. apply qsum_ext. intros k Hk. rewrite F3 by auto. ring. }
  rewrite E, E1, E2. transitivity (f * row_image n s L U U' i)%Qc; [unfold row_image; ring|].
  destruct (Qc_eq_dec' (y i) 0) as [Z|NZ].
  - rewrite (F1 Z), Z. ring.
  - destruct (F2 NZ) as [G ->]. field. exact G.
Qed.

Lemma proportional a n st0 s y : distinct_keys a -> acceptable a n -> setMatrix a = Ret st0 ->
  leading_nonsingular n (mval a) -> fill_covered a (mval a) n ->
  (forall i, (i < n)%nat -> exists c, (i <= c)%nat /\ stored a i c) ->
  length s = n -> length y = n ->
  (secantUpdateProportional st0 s y = Throw /\ exists i, (i < n)%nat /\ vfun y i <> 0%Qc) \/
  exists st' A' L U L' U', secantUpdateProportional st0 s y = Ret st' /\
    (forall r c, (r < n)%nat -> (c < n)%nat -> elementAt st' r c = Ret (A' r c)) /\
    unit_lower n L /\ upper n U /\ is_product n L U (mval a) /\ unit_lower n L' /\ upper n U' /\ is_product n L' U' A' /\
    (forall i, (i < n)%nat -> proportional_row n (vfun s) (vfun y) L U L' U' i) /\
    (forall i, (i < n)%nat -> qsum n (fun c => A' i c * vfun s c) = vfun y i + row_image n (vfun s) L U U' i)%Qc.
Proof.
  intros ND HA HS NS HC HDg Ls Ly. destruct (setMatrix_inv a n st0 ND HA HS) as [HY HH].
  assert (HR : represents st0 n (mval a)) by (left; auto).
  destruct (factorize_ok st0 n (mval a) HR NS) as (st1 & EF & EY & HD & HPv).
  assert (HY1 : ulay st1 = mk_layout n a) by congruence.
  assert (HCv : covered st1 n).
  { assert (DG : forall i, (i < n)%nat -> (i <= nn i (ys (ulay st1)))%nat).
    { intros i Hi. rewrite HY1. simpl. destruct (scan_s_spec n a) as [_ HS']. destruct (HDg i Hi) as (c & Hc & Hs).
      apply (proj1 (HS' i Hi)) in Hs. lia. }
    split; auto. intros r c Hr Hc Hlt. pose proof (DG r Hr).
    apply (HC (Lof st1) (Uof st1)); try lia; [apply Lof_unit|apply Uof_upper|apply HD|].
    rewrite HY1 in Hlt. apply (lastcol_spec n a r c Hr Hlt). }
  assert (HRun : secantUpdateProportional st0 s y = secantUpdateProportional st1 s y).
  { unfold secantUpdateProportional. rewrite EF. cbn [obind]. unfold factorize. destruct HD as (_ & HF & _). rewrite HF. reflexivity. }
  rewrite HRun. destruct (prop_ok st1 n (mval a) s y HD HCv ltac:(lia) ltac:(lia)) as [T|(st' & A' & E & EY' & HD' & PR)]; [left; exact T|right].
  exists st', A', (Lof st1), (Uof st1), (Lof st'), (Uof st'). split; [exact E|]. split.
  { intros. apply (elementAt_ok st' n A'); auto. right; auto. }
  split; [apply Lof_unit|]. split; [apply Uof_upper|]. split; [apply HD|]. split; [apply Lof_unit|]. split; [apply Uof_upper|]. split; [apply HD'|].
  split; [exact PR|]. intros i Hi. apply (prop_image n (Lof st1) (Uof st1) (Lof st') (Uof st') A'); auto; try apply Lof_unit; try apply Uof_upper. apply HD'.
Qed.
