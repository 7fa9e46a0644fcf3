(** LufFacts2.v - the LU factorizer over any arithmetic: setMatrix, solve, and the profile in terms of the stencil. *)
From Coq Require Import List Arith Lia ZArith QArith Qcanon Bool.
Require Import Verif.Base Verif.BaseFacts Verif.LUModel Verif.LUSpec Verif.LUFacts Verif.LUFacts2 Verif.LufModel Verif.LufSpec Verif.LufFacts.
Import ListNotations.
Local Open Scope nat_scope.

Section Gen.
Context {N : Num}.
Local Notation T := (nT N).
Local Notation O := (n0 N).

(** the stencil alone *)
Definition keysQ (e : entriesN N) : entries := map (fun x => (fst x, 0%Qc)) e.
Lemma fold_map {A B C} (g : C -> B -> C) (h : A -> B) l : forall a, fold_left g (map h l) a = fold_left (fun c x => g c (h x)) l a.
Proof. induction l as [|x l I]; intros a; [reflexivity|]. simpl. apply I. Qed.
Lemma nr_keys e : mat_nrN e = mat_nr (keysQ e). Proof. unfold mat_nr, keysQ. rewrite fold_map. reflexivity. Qed.
Lemma nc_keys e : mat_ncN e = mat_nc (keysQ e). Proof. unfold mat_nc, keysQ. rewrite fold_map. reflexivity. Qed.
Lemma p_keys n e : scan_pN n e = scan_p n (keysQ e). Proof. unfold scan_p, keysQ. rewrite fold_map. reflexivity. Qed.
Lemma q_keys n e : scan_qN n e = scan_q n (keysQ e). Proof. unfold scan_q, keysQ. rewrite fold_map. reflexivity. Qed.
Lemma s_keys n e : scan_sN n e = scan_s n (keysQ e). Proof. unfold scan_s, keysQ. rewrite fold_map. reflexivity. Qed.
Lemma stored_keys e r c : stored (keysQ e) r c <-> storedN e r c.
Proof.
  split.
  - intros [v H]. apply in_map_iff in H as [[[r' c'] w] [E H]]. injection E as -> -> _. exists w. assumption.
  - intros [v H]. exists 0%Qc. apply in_map_iff. exists ((r, c), v). split; [reflexivity|assumption].
Qed.
Lemma acceptable_keys e n : acceptableN e n <-> acceptable (keysQ e) n.
Proof.
  unfold acceptableN, acceptable. split; intros [H1 H2]; split.
  - intros r c H. apply stored_keys in H. apply H1. assumption.
  - intros i Hi. destruct (H2 i Hi) as [[c [Hc Hc']] [r [Hr Hr']]]. split; [exists c|exists r]; (split; [apply stored_keys; assumption|assumption]).
  - intros r c H. apply stored_keys in H. apply H1. assumption.
  - intros i Hi. destruct (H2 i Hi) as [[c [Hc Hc']] [r [Hr Hr']]]. split; [exists c|exists r]; (split; [apply stored_keys; assumption|assumption]).
Qed.
Definition lay (n : nat) (e : entriesN N) : layout := mk_layout n (keysQ e).
Lemma lay_valid n e : acceptableN e n -> valid_layout (lay n e) n.
Proof.
  intros HA. apply acceptable_keys in HA. pose proof HA as [HB _]. apply mk_layout_valid; [intros r c v H; apply HB; exists v; assumption|]. apply (acceptable_stencil _ _ HB). assumption.
Qed.

Lemma mval_inN (e : entriesN N) r c v : distinct_keys e -> In ((r, c), v) e -> mvalN e r c = v.
Proof.
  unfold distinct_keys. induction e as [|((r',c'),v') e IH]; simpl; intros ND H; [tauto|].
  inversion ND; subst. destruct H as [H|H].
  - inversion H; subst. rewrite !Nat.eqb_refl. auto.
  - destruct (Nat.eqb_spec r' r); destruct (Nat.eqb_spec c' c); simpl; auto. subst. exfalso. apply H2. apply (in_map fst) in H. auto.
Qed.
Lemma mval_notinN (e : entriesN N) r c : ~ storedN e r c -> mvalN e r c = O.
Proof.
  induction e as [|((r',c'),v') e IH]; simpl; intros H; auto.
  destruct (Nat.eqb_spec r' r); destruct (Nat.eqb_spec c' c); simpl; auto; try (apply IH; intros (v & Hv); apply H; exists v; right; auto).
  subst. exfalso. apply H. exists v'. left. auto.
Qed.
Lemma stored_decN (e : entriesN N) r c : storedN e r c \/ ~ storedN e r c.
Proof. destruct (stored_dec (keysQ e) r c) as [H|H]; [left; apply stored_keys; assumption|right; intros K; apply H; apply stored_keys; assumption]. Qed.

Section Fill.
Variables (y : layout) (n : nat).
Hypothesis V : valid_layout y n.
Lemma fill_okN (e : entriesN N) : forall l u, lnL y n l -> lnU y n u -> distinct_keys e ->
  (forall r c v, In ((r, c), v) e -> r < n /\ c < n /\ (if Nat.leb r c then inU y r c else inL y r c) = true) ->
  exists lu', ofold (fill_stepN y) e (l, u) = Ret lu' /\ lnL y n (fst lu') /\ lnU y n (snd lu') /\
    forall r c, r < n -> c < n -> (storedN e r c -> N0 y (fst lu') (snd lu') r c = mvalN e r c) /\ (~ storedN e r c -> N0 y (fst lu') (snd lu') r c = N0 y l u r c).
Proof.
  induction e as [|((r0,c0),v0) e IH]; intros l u HL HU ND HIn.
  - simpl. exists (l, u). repeat split; auto. intros (v & []).
  - simpl. destruct (HIn r0 c0 v0) as (Hr0 & Hc0 & HP); [left; auto|].
    assert (HS : exists l1 u1, (if Nat.leb r0 c0 then u' <- putUN y u r0 c0 v0;; Ret (l, u') else l' <- putLN y l r0 c0 v0;; Ret (l', u)) = Ret (l1, u1) /\
                     lnL y n l1 /\ lnU y n u1 /\ forall r c, r < n -> c < n -> N0 y l1 u1 r c = upd2 (N0 y l u) r0 c0 v0 r c).
    { destruct (Nat.leb_spec r0 c0) as [Hle|Hgt].
      - destruct (putU_okN y n V u r0 c0 v0 HU Hc0 HP) as (u' & E & HU' & H'). rewrite E. simpl.
        exists l, u'. repeat split; auto. intros r c Hr Hc. unfold N0. unfold upd2.
        destruct (Nat.leb_spec r c).
        + rewrite H' by auto. reflexivity.
        + destruct (Nat.eqb_spec r r0); destruct (Nat.eqb_spec c c0); simpl; auto. lia.
      - destruct (putL_okN y n V l r0 c0 v0 HL Hr0 HP) as (l' & E & HL' & H'). rewrite E. simpl.
        exists l', u. repeat split; auto. intros r c Hr Hc. unfold N0. unfold upd2.
        destruct (Nat.leb_spec r c).
        + destruct (Nat.eqb_spec r r0); destruct (Nat.eqb_spec c c0); simpl; auto. lia.
        + rewrite H' by auto. reflexivity. }
    destruct HS as (l1 & u1 & E & HL1 & HU1 & H1). inversion ND; subst.
    destruct (IH l1 u1 HL1 HU1 H3) as (lu' & E' & HL' & HU' & H'). { intros; eapply HIn; right; eauto. }
    exists lu'. simpl in E |- *. rewrite E. simpl. split; auto. split; auto. split; auto.
    intros r c Hr Hc. destruct (H' r c Hr Hc) as [Ha Hb].
    destruct (Nat.eq_dec r0 r) as [Er|Er]; [destruct (Nat.eq_dec c0 c) as [Ec|Ec]|].
    + subst. split.
      * intros _. rewrite Hb. 2:{ intros (v & Hv). apply H2. apply (in_map fst) in Hv. auto. } rewrite H1 by auto. rewrite upd2_eq. rewrite !Nat.eqb_refl. auto.
      * intro HN. exfalso. apply HN. exists v0. left; auto.
    + assert (Enc : (c0 =? c) = false) by (apply Nat.eqb_neq; auto). rewrite Enc, andb_false_r. split.
      * intros (v & [Hv|Hv]); [congruence|]. apply Ha. exists v; auto.
      * intros HN. rewrite Hb. rewrite H1, upd2_neq by lia; auto. intros (v & Hv). apply HN. exists v. right; auto.
    + assert (Enc : (r0 =? r) = false) by (apply Nat.eqb_neq; auto). rewrite Enc. simpl. split.
      * intros (v & [Hv|Hv]); [congruence|]. apply Ha. exists v; auto.
      * intros HN. rewrite Hb. rewrite H1, upd2_neq by lia; auto. intros (v & Hv). apply HN. exists v. right; auto.
Qed.
Lemma N0_zero a b r c : r < n -> c < n -> N0 y (repeat O a) (repeat O b) r c = O.
Proof. intros. unfold N0, NU, NL. destruct (Nat.leb r c); [destruct (inU y r c)|destruct (inL y r c)]; auto; apply nth_repeat. Qed.
End Fill.

Lemma setMatrix_okN (e : entriesN N) n : distinct_keys e -> acceptableN e n ->
  exists st, setMatrixN e = Ret st /\ nlay st = lay n e /\ lnL (lay n e) n (nl st) /\ lnU (lay n e) n (nu st) /\ nfact st = false /\
    forall r c, r < n -> c < n -> N0 (lay n e) (nl st) (nu st) r c = mvalN e r c.
Proof.
  intros ND HA. pose proof (lay_valid n e HA) as V. pose proof (proj1 (acceptable_keys e n) HA) as HQ. destruct (acceptable_dims _ n HQ) as [Hnr Hnc].
  pose proof HQ as [HB _]. pose proof (proj1 (acceptable_stencil _ n HB) HQ) as HS.
  unfold setMatrixN. rewrite nr_keys, nc_keys, Hnr, Hnc, Nat.eqb_refl. rewrite p_keys, q_keys, s_keys. cbn [negb]. rewrite HS. cbn [negb].
  change (mkLayout (scan_p n (keysQ e)) (scan_q n (keysQ e)) (scan_s n (keysQ e)) (addr 0 (scan_p n (keysQ e))) (addr 1 (scan_q n (keysQ e)))) with (lay n e).
  destruct (fill_okN (lay n e) n V e (repeat O (nn n (addr 0 (scan_p n (keysQ e))))) (repeat O (nn n (addr 1 (scan_q n (keysQ e)))))) as (lu' & E & HL & HU & H); auto.
  - unfold lnL. rewrite repeat_length. auto.
  - unfold lnU. rewrite repeat_length. auto.
  - intros r c v Hv. destruct (HB r c); [apply stored_keys; exists v; auto|]. split; auto. split; auto. apply stored_inprofile; auto. apply stored_keys. exists v; auto.
  - rewrite E. cbn [obind]. eexists. split; [reflexivity|]. cbn [nlay nl nu nfact]. split; [reflexivity|]. split; [assumption|]. split; [assumption|]. split; [reflexivity|].
    intros r c Hr Hc. destruct (H r c Hr Hc) as [Ha Hb]. destruct (stored_decN e r c) as [Hs|Hs]; [auto|].
    rewrite Hb by auto. rewrite (N0_zero _ n) by auto. symmetry. apply mval_notinN; auto.
Qed.

(** the profile by the stencil *)
Lemma existsb_keys (P : nat -> nat -> bool) (e : entriesN N) : existsb (fun x => P (fst (fst x)) (snd (fst x))) e = true <-> exists r c, storedN e r c /\ P r c = true.
Proof.
  rewrite existsb_exists. split.
  - intros [[[r c] v] [H1 H2]]. exists r, c. split; [exists v; assumption|assumption].
  - intros [r [c [[v H] HP]]]. exists ((r, c), v). split; assumption.
Qed.
Lemma sky_low (e : entriesN N) n r c : c < r < n -> (sky e r c = inL (lay n e) r c).
Proof.
  intros [H1 H2]. apply eq_true_iff_eq. rewrite inL_spec. unfold sky. destruct (Nat.ltb_spec c r); [|lia]. rewrite (existsb_keys (fun a b => (a =? r) && (b <=? c))).
  destruct (scan_p_spec n (keysQ e)) as [_ Hp]. destruct (Hp r H2) as [B1 [B2 B3]]. unfold lay, mk_layout. cbn [yp]. split.
  - intros [r' [c0 [S E]]]. apply andb_true_iff in E as [E1 E2]. apply Nat.eqb_eq in E1. apply Nat.leb_le in E2. subst r'. apply stored_keys in S. specialize (B2 c0 S). lia.
  - intros [P1 P2]. destruct B3 as [B3|B3]; [lia|]. exists r, (nn r (scan_p n (keysQ e))). split; [apply stored_keys; assumption|]. rewrite Nat.eqb_refl. apply Nat.leb_le. assumption.
Qed.
Lemma sky_upp (e : entriesN N) n r c : r <= c < n -> (sky e r c = inU (lay n e) r c).
Proof.
  intros [H1 H2]. apply eq_true_iff_eq. rewrite inU_spec. unfold sky. destruct (Nat.ltb_spec c r); [lia|]. rewrite (existsb_keys (fun a b => (b =? c) && (a <=? r))).
  destruct (scan_q_spec n (keysQ e)) as [_ Hp]. destruct (Hp c H2) as [B1 [B2 B3]]. unfold lay, mk_layout. cbn [yq]. split.
  - intros [r0 [c' [S E]]]. apply andb_true_iff in E as [E1 E2]. apply Nat.eqb_eq in E1. apply Nat.leb_le in E2. subst c'. apply stored_keys in S. specialize (B2 r0 S). lia.
  - intros [P1 P2]. destruct B3 as [B3|B3]; [lia|]. exists (nn c (scan_q n (keysQ e))), c. split; [apply stored_keys; assumption|]. rewrite Nat.eqb_refl. apply Nat.leb_le. assumption.
Qed.
Lemma reaches_row (e : entriesN N) n r c : r < n -> 0 < c -> reaches e r c = Nat.leb c (nn r (ys (lay n e))).
Proof.
  intros H1 H0. apply eq_true_iff_eq. rewrite Nat.leb_le. unfold reaches. rewrite (existsb_keys (fun a b => (a =? r) && (c <=? b))).
  destruct (scan_s_spec n (keysQ e)) as [_ Hp]. destruct (Hp r H1) as [B1 B2]. unfold lay, mk_layout. cbn [ys]. split.
  - intros [r' [c0 [S E]]]. apply andb_true_iff in E as [E1 E2]. apply Nat.eqb_eq in E1. apply Nat.leb_le in E2. subst r'. apply stored_keys in S. specialize (B1 c0 S). lia.
  - intros P. destruct B2 as [B2|B2]; [lia|]. exists r, (nn r (scan_s n (keysQ e))). split; [apply stored_keys; assumption|]. rewrite Nat.eqb_refl. apply Nat.leb_le. assumption.
Qed.

(** the whole program *)
Lemma any_lu (e : entriesN N) n : distinct_keys e -> acceptableN e n ->
  exists st st' L U, setMatrixN e = Ret st /\ factorizeN st = Ret st' /\ factorizeN st' = Ret st' /\ factorsN st' e n L U /\ doolittle e n L U /\
    forall b, n <= length b -> exists x y, solveN st b = Ret (st', x) /\ solveN st' b = Ret (st', x) /\ length x = length b /\
      (forall j, n <= j -> nth j x O = nth j b O) /\ substituted e n L U (fun i => nth i b O) y (fun i => nth i x O).
Proof.
  intros ND HA. pose proof (lay_valid n e HA) as V. destruct (setMatrix_okN e n ND HA) as [st [E [EY [HL [HU [HF HM]]]]]].
  destruct (factorize_loop_okN (lay n e) n V (mvalN e) (nl st) (nu st) HL HU HM) as [[l u] [EF [FL [FU [[Q1 Q2] _]]]]]. cbn [fst snd] in *.
  set (st' := mkLuN (lay n e) l u true). set (L := NL (lay n e) l) in *. set (U := NU (lay n e) u) in *.
  assert (EF1 : factorizeN st = Ret st') by (unfold factorizeN; rewrite HF, EY, (v_p _ _ V), EF; reflexivity).
  assert (EF2 : factorizeN st' = Ret st') by reflexivity.
  assert (BO : forall r c m, c < n -> r < n -> m <= r -> m <= c -> filter (both (lay n e) r c) (seq 0 m) = filter (fun k => sky e r k && sky e k c) (seq 0 m)).
  { intros r c m Hc Hr M1 M2. apply filter_ext_in. intros k Hk. apply in_seq in Hk. unfold both. rewrite <- (sky_low e n r k) by lia. rewrite <- (sky_upp e n k c) by lia. reflexivity. }
  exists st, st', L, U. split; [exact E|]. split; [exact EF1|]. split; [exact EF2|]. split; [|split].
  - split; [|split].
    + intros r c Hc SK. rewrite (sky_low e n) in SK by assumption. apply (getL_okN (lay n e) n V); [exact FL|lia|exact SK].
    + intros r c Hc SK. rewrite (sky_upp e n) in SK by assumption. apply (getU_okN (lay n e) n V); [exact FU|lia|exact SK].
    + intros r c Hr Hc SK. split; intros Hd.
      * rewrite (sky_low e n) in SK by lia. unfold L, NL. rewrite SK. reflexivity.
      * rewrite (sky_upp e n) in SK by lia. unfold U, NU. rewrite SK. reflexivity.
  - split.
    + intros r c Hc SK. rewrite (sky_low e n) in SK by assumption. apply inL_spec in SK. rewrite (Q1 r c) by lia. f_equal. unfold GL. rewrite BO by lia. reflexivity.
    + intros r c Hc SK. rewrite (sky_upp e n) in SK by assumption. apply inU_spec in SK. rewrite (Q2 r c) by lia. unfold GL. rewrite BO by lia. reflexivity.
  - intros b Hb.
    destruct (ofor_inv (fun m x => length x = length b /\ (forall j, m <= j -> vf x j = vf b j) /\
       forall r, r < m -> vf x r = minus_all (filter (inL (lay n e) r) (seq 0 r)) (fun k => nmul N (L r k) (vf x k)) (vf b r))
       (Nat.min 1 n) n (fwd_rowN (lay n e) l) b) as (x1 & E1 & L1' & F1 & F2).
    { lia. }
    { repeat split; auto. intros r Hr. assert (r = 0) by lia. subst. reflexivity. }
    { intros i x Hi (H1 & H2 & H3).
      destruct (fwd_row_okN (lay n e) n V l i x FL ltac:(lia) ltac:(lia)) as (x' & E' & K1 & K2 & K3).
      exists x'. split; auto. split; [lia|]. split.
      - intros j Hj. rewrite K2 by lia. apply H2. lia.
      - intros r Hr. destruct (Nat.eq_dec r i) as [->|Hne].
        + rewrite K3. rewrite H2 by lia. apply minus_ext. intros k Hk. apply in_below in Hk as [Hk _]. rewrite K2 by lia. reflexivity.
        + rewrite K2 by lia. rewrite H3 by lia. apply minus_ext. intros k Hk. apply in_below in Hk as [Hk _]. rewrite K2 by lia. reflexivity. }
    assert (E1' : ofor 1 n (fwd_rowN (lay n e) l) b = Ret x1). { destruct n; [|exact E1]. unfold ofor in E1 |- *. simpl in *. auto. }
    assert (BW : exists x2, ofor_down n (bwd_rowN (lay n e) u) x1 = Ret x2 /\ length x2 = length b /\ (forall j, n <= j -> vf x2 j = vf b j) /\
      forall r, r < n -> vf x2 r = ndiv N (minus_all (filter (rowU (lay n e) r) (seq (S r) (n - S r))) (fun k => nmul N (U r k) (vf x2 k)) (vf x1 r)) (U r r)).
    { unfold ofor_down.
      destruct (ofor_inv (fun m x => length x = length b /\ (forall j, n <= j -> vf x j = vf b j) /\ (forall j, j < n - m -> vf x j = vf x1 j) /\
        forall r, n - m <= r < n -> vf x r = ndiv N (minus_all (filter (rowU (lay n e) r) (seq (S r) (n - S r))) (fun k => nmul N (U r k) (vf x k)) (vf x1 r)) (U r r))
        0 n (fun k => bwd_rowN (lay n e) u (n - 1 - k)) x1) as (x2 & E2 & K1 & K2 & K3 & K4).
      - lia.
      - repeat split; auto. intros; lia.
      - intros k x Hk (H1 & H2 & H3 & H4). set (i := n - 1 - k).
        destruct (bwd_row_okN (lay n e) n V u i x FU ltac:(lia) ltac:(lia)) as (x' & E' & K1 & K2 & K3).
        exists x'. split; auto. split; [lia|].
        assert (SUM : forall r v, i <= r -> minus_all (filter (rowU (lay n e) r) (seq (S r) (n - S r))) (fun k => nmul N (U r k) (vf x' k)) v = minus_all (filter (rowU (lay n e) r) (seq (S r) (n - S r))) (fun k => nmul N (U r k) (vf x k)) v).
        { intros r v Hr. apply minus_ext. intros j Hj. apply filter_In in Hj as [Hj _]. apply in_seq in Hj. rewrite K2 by lia. reflexivity. }
        split; [intros; rewrite K2 by lia; apply H2; lia|]. split.
        + intros j Hj. rewrite K2 by lia. apply H3. lia.
        + intros r Hr. rewrite SUM by lia. destruct (Nat.eq_dec r i) as [->|Hne].
          * rewrite K3. rewrite H3 by lia. reflexivity.
          * rewrite K2 by lia. apply H4. lia.
      - exists x2. split; auto. split; auto. split; auto. intros r Hr. apply K4. lia. }
    destruct BW as (x2 & E2 & L2 & O2 & B2).
    assert (SOLVE : forall s, factorizeN s = Ret st' -> solveN s b = Ret (st', x2)).
    { intros s Es. unfold solveN. rewrite Es. cbn [obind]. unfold st' at 1 2 3 4 5 6. cbn [nlay nl nu]. rewrite (v_p _ _ V), E1'. cbn [obind]. rewrite E2. reflexivity. }
    exists x2, (vf x1). split; [apply SOLVE; exact EF1|]. split; [apply SOLVE; exact EF2|]. split; [exact L2|]. split; [exact O2|]. split.
    + intros r Hr. rewrite F2 by lia. rewrite (filter_ext_in (inL (lay n e) r) (sky e r)); [reflexivity|]. intros k Hk. apply in_seq in Hk. symmetry. apply sky_low. lia.
    + intros r Hr. fold (vf x2 r). rewrite B2 by assumption. f_equal. rewrite (filter_ext_in (rowU (lay n e) r) (fun k => sky e r k && reaches e r k)); [reflexivity|].
      intros k Hk. apply in_seq in Hk. unfold rowU. rewrite <- (sky_upp e n) by lia. rewrite <- (reaches_row e n) by lia. reflexivity.
Qed.
End Gen.
