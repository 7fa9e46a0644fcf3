(** LufFacts5.v - elimination in rounded arithmetic for matrices dominated by their diagonal. *)
From Coq Require Import List Arith Lia Bool ZArith QArith Qcanon Reals Lra.
From Verif Require Import Base BaseFacts LUSpec LUModel ConvSpec ConvFacts ConvFacts3 StepSpec FpSpec LufModel LufSpec LufFacts LufFacts2 LufFacts3 LufFacts4 RopFacts2 LudSpec.
Import ListNotations.
Local Open Scope R_scope.

Lemma sgn_move s a b : Rabs s <= 1 -> s * Rabs a <= s * Rabs b + Rabs (a - b).
Proof.
  intros H. assert (Rabs (s * (Rabs a - Rabs b)) <= Rabs (a - b)).
  { rewrite Rabs_mult. pose proof (Rabs_triang_inv2 a b). assert (Rabs s * Rabs (Rabs a - Rabs b) <= 1 * Rabs (Rabs a - Rabs b)) by (apply Rmult_le_compat_r; [apply Rabs_pos|exact H]). lra. }
  pose proof (Rle_abs (s * (Rabs a - Rabs b))). lra.
Qed.
Lemma rsum_one n k a : (k < n)%nat -> rsum n (fun c => if Nat.eqb c k then a else 0) = a.
Proof.
  intros H. rewrite (rsum_remove n k) by exact H. rewrite Nat.eqb_refl, rsum_zero; [ring|]. intros i _. destruct (Nat.eqb i k); reflexivity.
Qed.

Section Row.
Context (rnd : R -> R) (u : R) (n : nat) (e : entriesN (FNum rnd)) (L U : nat -> nat -> R).
Hypothesis RE : relative rnd u.
Hypothesis U0 : 0 <= u.
Hypothesis U1 : u <= 1.
Hypothesis OUT : forall r c, (r < n)%nat -> (c < n)%nat -> sky e r c = false -> ((c < r)%nat -> L r c = 0) /\ ((r <= c)%nat -> U r c = 0).
Hypothesis DO : doolittle e n L U.
Context (r : nat).
Hypothesis Hr : (r < n)%nat.
Hypothesis IH : forall m, (m < r)%nat -> U m m <> 0 /\ rsum n (fun c => if (m <? c)%nat then Rabs (U m c) else 0) <= Rabs (U m m).
Definition Sv (m c : nat) : R := minus_all (N:=FNum rnd) (filter (fun k => sky e r k && sky e k c) (seq 0 m)) (fun k => rnd (L r k * U k c)) (mvalN e r c).
Lemma Sv_S m c : Sv (S m) c = if sky e r m && sky e m c then rnd (Sv m c - rnd (L r m * U m c)) else Sv m c.
Proof.
  unfold Sv. rewrite seq_S, filter_app. cbn [filter plus]. destruct (sky e r m && sky e m c); [|rewrite app_nil_r; reflexivity].
  unfold minus_all. rewrite fold_left_app. reflexivity.
Qed.
Lemma Sv_err m c : (m < r)%nat -> (m < c < n)%nat -> Rabs (Sv (S m) c - Sv m c) <= u * Rabs (Sv m c) + (1 + 3 * u) * (Rabs (L r m) * Rabs (U m c)).
Proof.
  intros Hm Hc. rewrite Sv_S. pose proof (Rabs_pos (Sv m c)) as P1. pose proof (Rabs_pos (L r m)). pose proof (Rabs_pos (U m c)).
  assert (P2 : 0 <= Rabs (L r m) * Rabs (U m c)) by (apply Rmult_le_pos; assumption).
  assert (P3 : 0 <= u * Rabs (Sv m c)) by (apply Rmult_le_pos; assumption). assert (P4 : 0 <= u * (Rabs (L r m) * Rabs (U m c))) by (apply Rmult_le_pos; assumption).
  destruct (sky e r m && sky e m c) eqn:SK.
  - pose proof (RE (L r m * U m c)) as R1. rewrite Rabs_mult in R1. set (p := rnd (L r m * U m c)) in *. pose proof (RE (Sv m c - p)) as R2. set (q := rnd (Sv m c - p)) in *.
    assert (PB : Rabs p <= (1 + u) * (Rabs (L r m) * Rabs (U m c))).
    { pose proof (Rabs_triang (p - L r m * U m c) (L r m * U m c)) as T. replace (p - L r m * U m c + L r m * U m c) with p in T by ring. rewrite Rabs_mult in T. lra. }
    assert (TB : Rabs (Sv m c - p) <= Rabs (Sv m c) + Rabs p). { pose proof (Rabs_triang (Sv m c) (- p)) as T. rewrite Rabs_Ropp in T. exact T. }
    pose proof (Rabs_triang (q - (Sv m c - p)) (- p)) as T. rewrite Rabs_Ropp in T. replace (q - (Sv m c - p) + - p) with (q - Sv m c) in T by ring.
    assert (V : u * Rabs (Sv m c - p) <= u * (Rabs (Sv m c) + (1 + u) * (Rabs (L r m) * Rabs (U m c)))) by (apply Rmult_le_compat_l; lra).
    assert (W : u * (u * (Rabs (L r m) * Rabs (U m c))) <= 1 * (u * (Rabs (L r m) * Rabs (U m c)))) by (apply Rmult_le_compat_r; lra). lra.
  - rewrite Rminus_eq_0, Rabs_R0. lra.
Qed.
Lemma L_le m : (m < r)%nat -> Rabs (L r m) * Rabs (U m m) <= (1 + u) * Rabs (Sv m m).
Proof.
  intros Hm. destruct (IH m Hm) as [NZ _]. assert (PZ : 0 < Rabs (U m m)) by (apply Rabs_pos_lt; exact NZ).
  destruct (sky e r m) eqn:SK.
  - pose proof (proj1 DO r m ltac:(lia) SK) as E. change (L r m = rnd (Sv m m / U m m)) in E. pose proof (RE (Sv m m / U m m)) as R1. rewrite <- E in R1.
    pose proof (Rabs_triang (L r m - Sv m m / U m m) (Sv m m / U m m)) as T. replace (L r m - Sv m m / U m m + Sv m m / U m m) with (L r m) in T by ring.
    assert (Q : Rabs (Sv m m / U m m) * Rabs (U m m) = Rabs (Sv m m)). { rewrite <- Rabs_mult. f_equal. field. exact NZ. }
    assert (B : Rabs (L r m) <= (1 + u) * Rabs (Sv m m / U m m)) by lra.
    apply Rle_trans with ((1 + u) * Rabs (Sv m m / U m m) * Rabs (U m m)); [apply Rmult_le_compat_r; lra|]. rewrite Rmult_assoc, Q. lra.
  - rewrite (proj1 (OUT r m Hr ltac:(lia) SK) Hm), Rabs_R0, Rmult_0_l. pose proof (Rabs_pos (Sv m m)). apply Rmult_le_pos; lra.
Qed.
Definition Wv (s : nat -> R) (m : nat) : R := rsum n (fun c => if (m <=? c)%nat then s c * Rabs (Sv m c) else 0).
Definition Mv := Wv (fun _ => 1).
Lemma Mv_pos m : 0 <= Mv m.
Proof. apply rsum_nonneg. intros i _. destruct (_ <=? _)%nat; [|lra]. pose proof (Rabs_pos (Sv m i)). lra. Qed.
Lemma Mv_diag m : (m < n)%nat -> Rabs (Sv m m) <= Mv m.
Proof.
  intros H. unfold Mv, Wv. rewrite (rsum_remove n m) by exact H. rewrite Nat.leb_refl.
  assert (0 <= rsum n (fun i => if Nat.eqb i m then 0 else if (m <=? i)%nat then 1 * Rabs (Sv m i) else 0)); [|lra].
  apply rsum_nonneg. intros i _. destruct (Nat.eqb i m); [lra|]. destruct (_ <=? _)%nat; [|lra]. pose proof (Rabs_pos (Sv m i)). lra.
Qed.
Lemma Wv_step s m : (forall c, Rabs (s c) <= 1) -> (m < r)%nat -> s m = 1 -> Wv s (S m) <= Wv s m + 8 * u * Mv m.
Proof.
  intros Hs Hm Sm.
  assert (P : Wv s (S m) <= rsum n (fun c => (if (m <=? c)%nat then s c * Rabs (Sv m c) else 0) - (if Nat.eqb c m then Rabs (Sv m m) else 0) +
    ((1 + 3 * u) * Rabs (L r m) * (if (m <? c)%nat then Rabs (U m c) else 0) + u * (if (m <=? c)%nat then 1 * Rabs (Sv m c) else 0)))).
  { apply rsum_le. intros c Hc. destruct (lt_eq_lt_dec c m) as [[LT|EQ]|GT].
    - destruct (Nat.leb_spec (S m) c); [lia|]. destruct (Nat.leb_spec m c); [lia|]. destruct (Nat.eqb_spec c m); [lia|]. destruct (Nat.ltb_spec m c); [lia|]. lra.
    - subst c. destruct (Nat.leb_spec (S m) m); [lia|]. rewrite Nat.leb_refl, Nat.eqb_refl. destruct (Nat.ltb_spec m m); [lia|]. rewrite Sm. pose proof (Rabs_pos (Sv m m)). assert (0 <= u * Rabs (Sv m m)) by (apply Rmult_le_pos; lra). lra.
    - destruct (Nat.leb_spec (S m) c); [|lia]. destruct (Nat.leb_spec m c); [|lia]. destruct (Nat.eqb_spec c m); [lia|]. destruct (Nat.ltb_spec m c); [|lia].
      pose proof (sgn_move (s c) (Sv (S m) c) (Sv m c) (Hs c)). pose proof (Sv_err m c Hm ltac:(lia)). lra. }
  eapply Rle_trans; [exact P|]. clear P. rewrite <- rsum_addf, <- rsum_minus, <- rsum_addf, <- !rsum_mulr. rewrite rsum_one by lia. fold (Wv s m). fold (Wv (fun _ => 1) m). fold Mv. change (Wv (fun _ => 1) m) with (Mv m).
  destruct (IH m Hm) as [_ D]. set (T := rsum n (fun c => if (m <? c)%nat then Rabs (U m c) else 0)) in *. pose proof (L_le m Hm) as LL. pose proof (Mv_diag m ltac:(lia)) as MD. pose proof (Rabs_pos (Sv m m)) as P0. pose proof (Rabs_pos (L r m)) as P1.
  assert (A : Rabs (L r m) * T <= (1 + u) * Rabs (Sv m m)). { eapply Rle_trans; [apply Rmult_le_compat_l; [exact P1|exact D]|exact LL]. }
  assert (B : (1 + 3 * u) * (Rabs (L r m) * T) <= (1 + 3 * u) * ((1 + u) * Rabs (Sv m m))) by (apply Rmult_le_compat_l; lra).
  assert (C : u * (u * Rabs (Sv m m)) <= 1 * (u * Rabs (Sv m m))) by (apply Rmult_le_compat_r; [apply Rmult_le_pos; lra|lra]).
  assert (E : u * Rabs (Sv m m) <= u * Mv m) by (apply Rmult_le_compat_l; lra). rewrite Rmult_assoc. lra.
Qed.
Notation q := (1 + 8 * u).
Lemma Mv_grow m : (m <= r)%nat -> Mv m <= q ^ m * Mv 0.
Proof.
  induction m as [|m I]; intros H; [simpl; lra|]. specialize (I ltac:(lia)). pose proof (Wv_step (fun _ => 1) m ltac:(intros; cbv beta; rewrite Rabs_R1; lra) ltac:(lia) eq_refl) as St. fold Mv in St.
  cbn [pow]. assert (q * Mv m <= q * (q ^ m * Mv 0)) by (apply Rmult_le_compat_l; lra). lra.
Qed.
Definition sr (c : nat) : R := if Nat.eqb c r then -1 else 1.
Lemma Nv_grow m : (m <= r)%nat -> Wv sr m <= Wv sr 0 + (q ^ m - 1) * Mv 0.
Proof.
  induction m as [|m I]; intros H; [simpl; lra|]. specialize (I ltac:(lia)).
  assert (St : Wv sr (S m) <= Wv sr m + 8 * u * Mv m).
  { apply Wv_step; [|lia|]. intros c. unfold sr. destruct (Nat.eqb c r); [rewrite Rabs_left by lra; lra|rewrite Rabs_R1; lra]. unfold sr. destruct (Nat.eqb_spec m r); [lia|reflexivity]. }
  pose proof (Mv_grow m ltac:(lia)) as G. assert (8 * u * Mv m <= 8 * u * (q ^ m * Mv 0)) by (apply Rmult_le_compat_l; lra). cbn [pow]. lra.
Qed.
Lemma U_Sv c : (r <= c < n)%nat -> Rabs (U r c) <= Rabs (Sv r c).
Proof.
  intros Hc. destruct (sky e r c) eqn:SK.
  - pose proof (proj2 DO r c Hc SK) as E. change (U r c = Sv r c) in E. rewrite E. lra.
  - rewrite (proj2 (OUT r c Hr ltac:(lia) SK) ltac:(lia)), Rabs_R0. apply Rabs_pos.
Qed.
Hypothesis SKD : sky e r r = true.
Hypothesis DOM : rsum n (fun c => if Nat.eqb c r then 0 else Rabs (mvalN e r c)) + loss n u * rsum n (fun c => Rabs (mvalN e r c)) < Rabs (mvalN e r r).
Lemma M0_eq : Mv 0 = rsum n (fun c => Rabs (mvalN e r c)).
Proof. apply rsum_ext. intros c _. cbn [Nat.leb]. rewrite Rmult_1_l. reflexivity. Qed.
Lemma q_mono a b : (a <= b)%nat -> q ^ a <= q ^ b.
Proof. intros H. apply Rle_pow; [lra|exact H]. Qed.
Lemma row_ok : U r r <> 0 /\ rsum n (fun c => if (r <? c)%nat then Rabs (U r c) else 0) <= Rabs (U r r).
Proof.
  assert (N0 : Wv sr 0 = rsum n (fun c => if Nat.eqb c r then 0 else Rabs (mvalN e r c)) - Rabs (mvalN e r r)).
  { unfold Wv. rewrite (rsum_remove n r) by exact Hr. cbn [Nat.leb]. unfold sr at 1. rewrite Nat.eqb_refl. change (Sv 0 r) with (mvalN e r r). rewrite (rsum_ext n _ (fun c => if Nat.eqb c r then 0 else Rabs (mvalN e r c))); [ring|].
    intros c _. unfold sr. destruct (Nat.eqb c r); [reflexivity|]. rewrite Rmult_1_l. reflexivity. }
  pose proof (Nv_grow r (le_n r)) as G. pose proof (q_mono r n ltac:(lia)) as QM. pose proof (Mv_pos 0) as MP. pose proof DOM as D. rewrite <- M0_eq in D. unfold loss in D.
  assert ((q ^ r - 1) * Mv 0 <= (q ^ n - 1) * Mv 0) by (apply Rmult_le_compat_r; lra). assert (NEG : Wv sr r < 0) by lra.
  assert (DI : U r r = Sv r r) by exact (proj2 DO r r ltac:(lia) SKD).
  assert (T : Wv sr r = - Rabs (Sv r r) + rsum n (fun c => if (r <? c)%nat then Rabs (Sv r c) else 0)).
  { unfold Wv. rewrite (rsum_remove n r) by exact Hr. rewrite Nat.leb_refl. unfold sr at 1. rewrite Nat.eqb_refl. f_equal; [ring|]. apply rsum_ext. intros c _. unfold sr.
    destruct (Nat.eqb_spec c r); destruct (Nat.leb_spec r c); destruct (Nat.ltb_spec r c); try lia; try reflexivity. ring. }
  assert (T2 : rsum n (fun c => if (r <? c)%nat then Rabs (U r c) else 0) <= rsum n (fun c => if (r <? c)%nat then Rabs (Sv r c) else 0)).
  { apply rsum_le. intros c Hc. destruct (Nat.ltb_spec r c); [|lra]. apply U_Sv. lia. }
  assert (T3 : 0 <= rsum n (fun c => if (r <? c)%nat then Rabs (Sv r c) else 0)). { apply rsum_nonneg. intros c _. destruct (_ <? _)%nat; [apply Rabs_pos|lra]. }
  rewrite DI. split; [|lra]. intros Z. rewrite Z, Rabs_R0 in T. lra.
Qed.
(** Size of the product of the factors. *)
Lemma upp_row k (X : R) (x : nat -> R) : (k < n)%nat -> (forall c, (c < n)%nat -> Rabs (x c) <= X) ->
  rsum n (fun c => if (k <? c)%nat then Rabs (U k c) else 0) <= Rabs (U k k) -> rsum n (fun c => Rabs (uppR U k c) * Rabs (x c)) <= 2 * Rabs (U k k) * X.
Proof.
  intros Hk HX D. assert (X0 : 0 <= X) by (pose proof (HX k Hk); pose proof (Rabs_pos (x k)); lra).
  apply Rle_trans with (rsum n (fun c => ((if Nat.eqb c k then Rabs (U k k) else 0) + (if (k <? c)%nat then Rabs (U k c) else 0)) * X)).
  - apply rsum_le. intros c Hc. specialize (HX c Hc). unfold uppR. destruct (lt_eq_lt_dec c k) as [[LT|EQ]|GT].
    + destruct (Nat.leb_spec k c); [lia|]. destruct (Nat.eqb_spec c k); [lia|]. destruct (Nat.ltb_spec k c); [lia|]. rewrite Rabs_R0. lra.
    + subst c. rewrite Nat.leb_refl, Nat.eqb_refl. destruct (Nat.ltb_spec k k); [lia|]. rewrite Rplus_0_r. apply Rmult_le_compat_l; [apply Rabs_pos|exact HX].
    + destruct (Nat.leb_spec k c); [|lia]. destruct (Nat.eqb_spec c k); [lia|]. destruct (Nat.ltb_spec k c); [|lia]. rewrite Rplus_0_l. apply Rmult_le_compat_l; [apply Rabs_pos|exact HX].
  - rewrite <- rsum_mult, <- rsum_addf, rsum_one by exact Hk. apply Rmult_le_compat_r; [exact X0|lra].
Qed.
Lemma size_row (X : R) (x : nat -> R) : (forall c, (c < n)%nat -> Rabs (x c) <= X) ->
  rsum n (fun k => Rabs (lowR L r k) * rsum n (fun c => Rabs (uppR U k c) * Rabs (x c))) <= INR n * (2 * (1 + u) * q ^ n * rsum n (fun c => Rabs (mvalN e r c)) * X).
Proof.
  intros HX. assert (X0 : 0 <= X) by (pose proof (HX r Hr); pose proof (Rabs_pos (x r)); lra). rewrite <- M0_eq. pose proof (Mv_pos 0) as MP.
  assert (K : forall b, rsum n (fun _ => b) = INR n * b). { intros b. clear. induction n as [|m I]; [simpl; ring|]. rewrite S_INR. cbn [rsum]. rewrite I. ring. }
  rewrite <- K. apply rsum_le. intros k Hk.
  assert (BK : forall k, (k <= r)%nat -> (1 + u) * Rabs (Sv k k) <= (1 + u) * (q ^ n * Mv 0)).
  { intros j Hj. apply Rmult_le_compat_l; [lra|]. eapply Rle_trans; [apply Mv_diag; lia|]. eapply Rle_trans; [apply Mv_grow; exact Hj|]. apply Rmult_le_compat_r; [exact MP|apply q_mono; lia]. }
  assert (PX : 0 <= (1 + u) * (q ^ n * Mv 0)). { apply Rmult_le_pos; [lra|]. apply Rmult_le_pos; [|exact MP]. apply pow_le. lra. }
  destruct (lt_eq_lt_dec k r) as [[LT|EQ]|GT].
  - rewrite low_lt by exact LT. destruct (IH k LT) as [_ D]. pose proof (upp_row k X x Hk HX D) as B. pose proof (Rabs_pos (L r k)) as P1. specialize (BK k ltac:(lia)). pose proof (L_le k LT) as LL.
    apply Rle_trans with (Rabs (L r k) * (2 * Rabs (U k k) * X)); [apply Rmult_le_compat_l; assumption|].
    replace (Rabs (L r k) * (2 * Rabs (U k k) * X)) with (2 * (Rabs (L r k) * Rabs (U k k)) * X) by ring. replace (2 * (1 + u) * q ^ n * Mv 0 * X) with (2 * ((1 + u) * (q ^ n * Mv 0)) * X) by ring. apply Rmult_le_compat_r; [exact X0|lra].
  - subst k. rewrite low_eq, Rabs_R1, Rmult_1_l. destruct row_ok as [_ D]. pose proof (upp_row r X x Hk HX D) as B. specialize (BK r (le_n r)). pose proof (U_Sv r ltac:(lia)) as US. pose proof (Rabs_pos (Sv r r)).
    eapply Rle_trans; [exact B|]. replace (2 * (1 + u) * q ^ n * Mv 0 * X) with (2 * ((1 + u) * (q ^ n * Mv 0)) * X) by ring. apply Rmult_le_compat_r; [exact X0|]. assert (0 <= u * Rabs (Sv r r)) by (apply Rmult_le_pos; assumption). lra.
  - rewrite low_gt by exact GT. rewrite Rabs_R0, Rmult_0_l. replace (2 * (1 + u) * q ^ n * Mv 0 * X) with (2 * ((1 + u) * (q ^ n * Mv 0)) * X) by ring. apply Rmult_le_pos; lra.
Qed.
End Row.
