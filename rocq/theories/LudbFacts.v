(** LudbFacts.v - the LU factorizer in doubles: what a finite solution tells about the factors. *)
From Coq Require Import List Arith Bool ZArith Lia Reals Lra.
From Flocq Require Import Core IEEE754.BinarySingleNaN.
From Verif Require Import Base BaseFacts LUSpec LUModel LufModel LufSpec LufFacts2 LufFacts4 IeeeSpec IeeeFacts VdSpec VdFacts.
Import ListNotations.
Local Open Scope nat_scope.
Notation fin x := (is_finite (x : double) = true).

Lemma fin_sub (a b : double) : fin (nsub DNum a b) -> fin a /\ fin b.
Proof. destruct a, b; cbn; intros H; try discriminate H; try (split; reflexivity); destruct s, s0; discriminate H. Qed.
Lemma fin_mul (a b : double) : fin (nmul DNum a b) -> fin a /\ fin b.
Proof. destruct a, b; cbn; intros H; try discriminate H; split; reflexivity. Qed.
Lemma fin_div (a b : double) : fin (ndiv DNum a b) -> fin a /\ (forall s, b <> B754_zero s) /\ b <> B754_nan /\ (B2R (ndiv DNum a b) <> 0%R -> fin b).
Proof. destruct a, b; cbn; intros H; try discriminate H; (split; [reflexivity|]); (split; [discriminate|]); (split; [discriminate|]); intros Q; try reflexivity; destruct Q; reflexivity. Qed.
Lemma fin_minus_all ks (g : nat -> double) : forall v : double, fin (minus_all (N:=DNum) ks g v) -> fin v /\ forall k, In k ks -> fin (g k).
Proof.
  induction ks as [|k ks I]; intros v H; [split; [exact H|intros k []]|]. cbn in H. apply I in H as [H1 H2]. apply fin_sub in H1 as [H0 H1]. split; [exact H0|]. intros k' [<-|Hk]; [exact H1|apply H2; exact Hk].
Qed.
Lemma nan_sub_l (y : double) : nsub DNum (B754_nan : double) y = B754_nan. Proof. destruct y; reflexivity. Qed.
Lemma nan_sub_r (x : double) : nsub DNum x (B754_nan : double) = B754_nan. Proof. destruct x; reflexivity. Qed.
Lemma nan_div_l (y : double) : ndiv DNum (B754_nan : double) y = B754_nan. Proof. destruct y; reflexivity. Qed.
Lemma nan_div_r (x : double) : ndiv DNum x (B754_nan : double) = B754_nan. Proof. destruct x; reflexivity. Qed.
Lemma nan_minus_v ks (g : nat -> double) : minus_all (N:=DNum) ks g (B754_nan : double) = B754_nan.
Proof. induction ks as [|k ks I]; [reflexivity|]. unfold minus_all in *. cbn [fold_left]. rewrite nan_sub_l. exact I. Qed.
Lemma nan_minus ks (g : nat -> double) k : In k ks -> g k = B754_nan -> forall v : double, minus_all (N:=DNum) ks g v = B754_nan.
Proof.
  intros Hk E. induction ks as [|j ks I]; [destruct Hk|]. intros v. destruct Hk as [->|Hk]; [|exact (I Hk _)].
  change (minus_all (N:=DNum) ks g (nsub DNum v (g k)) = B754_nan). rewrite E, nan_sub_r. apply nan_minus_v.
Qed.
Lemma sky_stored {N : Num} (e : entriesN N) r c : storedN e r c -> sky e r c = true.
Proof.
  intros [v I]. unfold sky. destruct (c <? r); apply existsb_exists; exists ((r, c), v); (split; [exact I|]); cbn [fst snd]; rewrite Nat.eqb_refl; apply Nat.leb_refl.
Qed.
Lemma reaches_stored {N : Num} (e : entriesN N) r c : storedN e r c -> reaches e r c = true.
Proof. intros [v I]. apply existsb_exists. exists ((r, c), v). split; [exact I|]. cbn [fst snd]. rewrite Nat.eqb_refl. apply Nat.leb_refl. Qed.
Lemma covered {N : Num} (e : entriesN N) n r c : coversN e n -> r < c < n -> sky e r c = true -> reaches e r c = true.
Proof.
  intros C H S. unfold sky in S. replace (c <? r) with false in S by (symmetry; apply Nat.ltb_ge; lia). apply existsb_exists in S as [[[r' c'] v] [I Q]]. cbn [fst snd] in Q. apply andb_prop in Q as [Q1 Q2]. apply Nat.eqb_eq in Q1. apply Nat.leb_le in Q2. subst c'.
  destruct (C r c H) as (c2 & L2 & v2 & I2). { exists r'. split; [exact Q2|exists v; exact I]. }
  apply existsb_exists. exists ((r, c2), v2). split; [exact I2|]. cbn [fst snd]. rewrite Nat.eqb_refl. apply Nat.leb_le. exact L2.
Qed.
Lemma mval_in {N : Num} (e : entriesN N) r c v : distinct_keys e -> In ((r, c), v) e -> mvalN e r c = v.
Proof.
  unfold distinct_keys. induction e as [|[[r' c'] w] e I]; intros D H; [destruct H|]. cbn [map fst] in D. inversion_clear D as [|? ? NI D']. cbn [mvalN]. destruct H as [H|H].
  - injection H as -> -> ->. rewrite !Nat.eqb_refl. reflexivity.
  - destruct (Nat.eqb_spec r' r) as [->|]; [destruct (Nat.eqb_spec c' c) as [->|]|]; cbn [andb]; [|apply I; assumption|apply I; assumption].
    destruct NI. apply in_map_iff. exists ((r, c), v). split; [reflexivity|exact H].
Qed.

Section Sol.
Context (e : entriesN DNum) (n : nat) (L U : nat -> nat -> double) (b y x : nat -> double).
Hypothesis D : doolittle (N:=DNum) e n L U.
Hypothesis S : substituted (N:=DNum) e n L U b y x.
Lemma row_finite r : r < n -> fin (x r) -> fin (y r) /\ fin (b r) /\ (forall s, U r r <> B754_zero s) /\ U r r <> B754_nan /\ (B2R (x r) <> 0%R -> fin (U r r)) /\
  (forall c, c < r -> sky e r c = true -> fin (L r c) /\ fin (y c)) /\
  (forall c, r < c < n -> sky e r c = true -> reaches e r c = true -> fin (U r c) /\ fin (x c)).
Proof.
  intros H F. destruct S as [S1 S2]. pose proof (S1 r H) as Ey. pose proof (S2 r H) as Ex. rewrite Ex in F. change (nT DNum) with double in *.
  apply fin_div in F as (F1 & F2 & F3 & F4). apply fin_minus_all in F1 as [F1 F5]. assert (Fy := F1). rewrite Ey in F1. apply fin_minus_all in F1 as [F6 F7].
  split; [exact Fy|]. split; [exact F6|]. split; [exact F2|]. split; [exact F3|]. split; [intros Q; apply F4; rewrite <- Ex; exact Q|]. split.
  - intros c Hc Sk. apply fin_mul. apply F7. apply filter_In. split; [apply in_seq; lia|exact Sk].
  - intros c Hc Sk Re. apply fin_mul. apply F5. apply filter_In. split; [apply in_seq; lia|]. rewrite Sk, Re. reflexivity.
Qed.
Lemma row_nan_b r : r < n -> b r = B754_nan -> x r = B754_nan.
Proof. intros H E. destruct S as [S1 S2]. rewrite (S2 r H), (S1 r H), E. change (nT DNum) with double in *. rewrite !nan_minus_v. apply nan_div_l. Qed.
Lemma row_nan_e r c : distinct_keys e -> acceptableN e n -> In ((r, c), (B754_nan : double)) e -> x r = B754_nan.
Proof.
  intros DK AC I. assert (ST : storedN e r c) by (eexists; exact I). destruct (proj1 AC r c ST) as [Hr Hc]. pose proof (mval_in e r c _ DK I) as MV. pose proof (sky_stored e r c ST) as Sk. pose proof (reaches_stored e r c ST) as Re.
  destruct S as [S1 S2]. destruct D as [D1 D2]. rewrite (S2 r Hr). change (nT DNum) with double in *. destruct (lt_eq_lt_dec c r) as [[H|H]|H].
  - assert (LN : L r c = B754_nan). { rewrite (D1 r c ltac:(lia) Sk), MV. change (nT DNum) with double in *. rewrite nan_minus_v. apply nan_div_l. }
    rewrite (S1 r Hr). rewrite (nan_minus (filter (sky e r) (seq 0 r)) _ c); [rewrite nan_minus_v; apply nan_div_l|apply filter_In; split; [apply in_seq; lia|exact Sk]|]. rewrite LN. apply nan_mul_l.
  - subst c. assert (UN : U r r = B754_nan) by (rewrite (D2 r r ltac:(lia) Sk), MV; apply nan_minus_v). rewrite UN. apply nan_div_r.
  - assert (UN : U r c = B754_nan) by (rewrite (D2 r c ltac:(lia) Sk), MV; apply nan_minus_v).
    rewrite (nan_minus (filter (fun k => sky e r k && reaches e r k) (seq (Datatypes.S r) (n - Datatypes.S r))) _ c); [apply nan_div_l|apply filter_In; split; [apply in_seq; lia|rewrite Sk, Re; reflexivity]|]. rewrite UN. apply nan_mul_l.
Qed.
End Sol.
Lemma lu_double (e : entriesN DNum) n : distinct_keys e -> acceptableN e n ->
  exists (st st' : luN DNum) (L U : nat -> nat -> double), setMatrixN e = Ret st /\ factorizeN st = Ret st' /\ factorsN (N:=DNum) st' e n L U /\
    forall b : list double, n <= length b -> exists x : list double, solveN st b = Ret (st', x) /\ solveN st' b = Ret (st', x) /\ length x = length b /\
      (forall r, r < n -> nth r b dzero = B754_nan \/ (exists c, In ((r, c), (B754_nan : double)) e) -> nth r x dzero = B754_nan) /\
      (forall r, r < n -> (exists s, U r r = B754_zero s) \/ U r r = B754_nan -> is_finite (nth r x dzero) = false) /\
      (coversN e n -> (forall r, r < n -> fin (nth r x dzero)) ->
         (forall r c, c < r < n -> sky e r c = true -> fin (L r c)) /\ (forall r c, r < c < n -> sky e r c = true -> fin (U r c)) /\
         (forall r, r < n -> B2R (nth r x dzero) <> 0%R -> fin (U r r) /\ B2R (U r r) <> 0%R)).
Proof.
  intros DK AC. destruct (@any_lu DNum e n DK AC) as (st & st' & L & U & E1 & E2 & E3 & F & D & H). exists st, st', L, U. split; [exact E1|]. split; [exact E2|]. split; [exact F|].
  intros b Lb. destruct (H b Lb) as (x & y & X1 & X2 & X3 & X4 & X5). exists x. split; [exact X1|]. split; [exact X2|]. split; [exact X3|]. change (n0 DNum) with dzero in *. change (nT DNum) with double in *.
  split; [|split].
  - intros r Hr [Q|[c Q]]; [exact (row_nan_b e n L U _ y _ X5 r Hr Q)|exact (row_nan_e e n L U _ y _ D X5 r c DK AC Q)].
  - intros r Hr Q. destruct (is_finite (nth r x dzero)) eqn:FX; [|reflexivity]. destruct (row_finite e n L U _ y _ X5 r Hr FX) as (_ & _ & Z & NN & _). destruct Q as [[s Q]|Q]; [destruct (Z s Q)|destruct (NN Q)].
  - intros CV FX. split; [|split].
    + intros r c Hc Sk. destruct (row_finite e n L U _ y _ X5 r ltac:(lia) (FX r ltac:(lia))) as (_ & _ & _ & _ & _ & Q & _). apply Q; [lia|exact Sk].
    + intros r c Hc Sk. destruct (row_finite e n L U _ y _ X5 r ltac:(lia) (FX r ltac:(lia))) as (_ & _ & _ & _ & _ & _ & Q). apply Q; [lia|exact Sk|]. apply (covered e n); [exact CV|exact Hc|exact Sk].
    + intros r Hr NZ. destruct (row_finite e n L U _ y _ X5 r Hr (FX r Hr)) as (_ & _ & Z & NN & Q & _). specialize (Q NZ). split; [exact Q|]. intros B. destruct (U r r) as [s| | |s mm ee Hb]; [exact (Z s eq_refl)|discriminate Q|discriminate Q|].
      simpl in B. apply eq_0_F2R in B. destruct s; discriminate B.
Qed.
