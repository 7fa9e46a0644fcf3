(** LufFacts4.v - backward error of the decomposition, residual of the solution. *)
From Coq Require Import List Arith Lia Bool ZArith QArith Qcanon Reals Lra.
From Flocq Require Import Core Relative.
From Verif Require Import Base BaseFacts LUSpec LUModel ConvSpec ConvFacts ConvFacts3 StepSpec FpSpec LufModel LufSpec LufFacts LufFacts2 LufFacts3.
Import ListNotations.
Local Open Scope R_scope.

Lemma filter_length_le {A} (P : A -> bool) (l : list A) : (length (filter P l) <= length l)%nat.
Proof. induction l as [|a l I]; simpl; [lia|]. destruct (P a); simpl; lia. Qed.
Lemma rsum_cut n m f : (m <= n)%nat -> (forall k, (m <= k < n)%nat -> f k = 0) -> rsum n f = rsum m f.
Proof.
  intros H Z. induction n as [|n I]; [replace m with 0%nat by lia; reflexivity|]. destruct (Nat.eq_dec m (S n)) as [->|NE]; [reflexivity|]. simpl. rewrite I by (try intros; try apply Z; lia). rewrite Z by lia. ring.
Qed.
Lemma rsum_split n r f : (r < n)%nat -> rsum n f = rsum r f + f r + lsum f (seq (S r) (n - S r)).
Proof.
  intros H. rewrite <- lsum_seq. replace n with (r + S (n - S r))%nat at 1 by lia. rewrite seq_app, lsum_app, lsum_seq. cbn [seq plus]. simpl lsum. ring.
Qed.
Lemma rsum_swap n m (f : nat -> nat -> R) : rsum n (fun i => rsum m (fun j => f i j)) = rsum m (fun j => rsum n (fun i => f i j)).
Proof.
  induction n as [|n I]; simpl.
  - induction m as [|m J]; simpl; [reflexivity|]. rewrite <- J. ring.
  - rewrite I. clear I. induction m as [|m J]; simpl; [ring|]. rewrite <- J. ring.
Qed.
Lemma rsum_mulr n c f : c * rsum n f = rsum n (fun i => c * f i).
Proof. induction n as [|n I]; simpl; [ring|]. rewrite <- I. ring. Qed.
Lemma rsum_zero n f : (forall k, (k < n)%nat -> f k = 0) -> rsum n f = 0.
Proof. intros H. rewrite (rsum_cut n 0) by (try lia; intros; apply H; lia). reflexivity. Qed.
Lemma rsum_addf n f g : rsum n f + rsum n g = rsum n (fun i => f i + g i).
Proof. induction n as [|n I]; simpl; [ring|]. rewrite <- I. ring. Qed.

Lemma minus_err' rnd u : relative rnd u -> 0 <= u -> u < 1 -> forall (l m : nat -> R) v ks (s : R), s = minus_all (N:=FNum rnd) ks (fun k => rnd (l k * m k)) v ->
  Rabs (v - lsum (fun k => l k * m k) ks - s) <= gg u (length ks) * (lsum (fun k => Rabs (l k * m k)) ks + Rabs s).
Proof. intros RE U0 U1 l m v ks s ->. apply (minus_err rnd u RE U0 U1 l m v ks). Qed.
Section Err.
Context (rnd : R -> R) (u : R) (n : nat) (e : entriesN (FNum rnd)) (L U : nat -> nat -> R).
Hypothesis RE : relative rnd u.
Hypothesis U0 : 0 <= u.
Hypothesis U1 : u < 1.
Hypothesis OUT : forall r c, (r < n)%nat -> (c < n)%nat -> sky e r c = false -> ((c < r)%nat -> L r c = 0) /\ ((r <= c)%nat -> U r c = 0).
Hypothesis DO : doolittle e n L U.
Hypothesis PIV : forall c, (c < n)%nat -> U c c <> 0.
Notation G := (gg u n).
Lemma G0 : 0 <= G. Proof. apply gg_pos; assumption. Qed.

Lemma sky_stored r c : storedN e r c -> sky e r c = true.
Proof.
  intros S. unfold sky. destruct (c <? r)%nat.
  - apply (existsb_keys (fun a b => (a =? r) && (b <=? c))%nat). exists r, c. split; [assumption|]. rewrite Nat.eqb_refl, Nat.leb_refl. reflexivity.
  - apply (existsb_keys (fun a b => (b =? c) && (a <=? r))%nat). exists r, c. split; [assumption|]. rewrite Nat.eqb_refl, Nat.leb_refl. reflexivity.
Qed.
Lemma sky_row r c k : (k <= c < r)%nat -> sky e r c = false -> sky e r k = false.
Proof.
  intros H E. destruct (sky e r k) eqn:K; [|reflexivity]. exfalso. apply Bool.not_true_iff_false in E. apply E. clear E.
  unfold sky in *. destruct (Nat.ltb_spec c r); [|lia]. destruct (Nat.ltb_spec k r); [|lia].
  apply (existsb_keys (fun a b => (a =? r) && (b <=? k))%nat) in K. destruct K as [r' [c' [S E]]]. apply (existsb_keys (fun a b => (a =? r) && (b <=? c))%nat). exists r', c'. split; [assumption|].
  apply andb_true_iff in E as [E1 E2]. apply Nat.leb_le in E2. apply andb_true_iff. split; [assumption|]. apply Nat.leb_le. lia.
Qed.
Lemma sky_col r c k : (k <= r <= c)%nat -> sky e r c = false -> sky e k c = false.
Proof.
  intros H E. destruct (sky e k c) eqn:K; [|reflexivity]. exfalso. apply Bool.not_true_iff_false in E. apply E. clear E.
  unfold sky in *. destruct (Nat.ltb_spec c r); [lia|]. destruct (Nat.ltb_spec c k); [lia|].
  apply (existsb_keys (fun a b => (b =? c) && (a <=? k))%nat) in K. destruct K as [r' [c' [S E]]]. apply (existsb_keys (fun a b => (b =? c) && (a <=? r))%nat). exists r', c'. split; [assumption|].
  apply andb_true_iff in E as [E1 E2]. apply Nat.leb_le in E2. apply andb_true_iff. split; [assumption|]. apply Nat.leb_le. lia.
Qed.
Lemma terms (F : R -> R) r c m : F 0 = 0 -> (r < n)%nat -> (c < n)%nat -> (m <= r)%nat -> (m <= c)%nat ->
  lsum (fun k => F (L r k * U k c)) (filter (fun k => sky e r k && sky e k c) (seq 0 m)) = rsum m (fun k => F (lowR L r k * uppR U k c)).
Proof.
  intros F0 Hr Hc M1 M2. rewrite lsum_filter.
  - rewrite lsum_seq. apply rsum_ext. intros k Hk. unfold lowR, uppR. destruct (Nat.ltb_spec k r); [|lia]. destruct (Nat.leb_spec k c); [|lia]. reflexivity.
  - intros k Hk E. apply in_seq in Hk. apply andb_false_iff in E as [E|E].
    + rewrite (proj1 (OUT r k Hr ltac:(lia) E) ltac:(lia)), Rmult_0_l. assumption.
    + rewrite (proj2 (OUT k c ltac:(lia) Hc E) ltac:(lia)), Rmult_0_r. assumption.
Qed.
Lemma low_lt r k : (k < r)%nat -> lowR L r k = L r k. Proof. intros. unfold lowR. destruct (Nat.ltb_spec k r); [reflexivity|lia]. Qed.
Lemma low_eq r : lowR L r r = 1. Proof. unfold lowR. rewrite Nat.ltb_irrefl, Nat.eqb_refl. reflexivity. Qed.
Lemma low_gt r k : (r < k)%nat -> lowR L r k = 0. Proof. intros. unfold lowR. destruct (Nat.ltb_spec k r); [lia|]. destruct (Nat.eqb_spec k r); [lia|reflexivity]. Qed.
Lemma upp_le k c : (k <= c)%nat -> uppR U k c = U k c. Proof. intros. unfold uppR. destruct (Nat.leb_spec k c); [reflexivity|lia]. Qed.
Lemma upp_gt k c : (c < k)%nat -> uppR U k c = 0. Proof. intros. unfold uppR. destruct (Nat.leb_spec k c); [lia|reflexivity]. Qed.

Lemma product_err r c : (r < n)%nat -> (c < n)%nat ->
  Rabs (rsum n (fun k => lowR L r k * uppR U k c) - mvalN e r c) <= G * rsum n (fun k => Rabs (lowR L r k) * Rabs (uppR U k c)).
Proof.
  intros Hr Hc. pose proof G0 as HG. rewrite (rsum_ext n (fun k => Rabs (lowR L r k) * Rabs (uppR U k c)) (fun k => Rabs (lowR L r k * uppR U k c))) by (intros; symmetry; apply Rabs_mult).
  destruct (sky e r c) eqn:SK.
  - destruct (Nat.lt_ge_cases c r) as [LT|GE].
    + assert (CUT : forall F, F 0 = 0 -> rsum n (fun k => F (lowR L r k * uppR U k c)) = rsum c (fun k => F (lowR L r k * uppR U k c)) + F (L r c * U c c)).
      { intros F F0. rewrite (rsum_cut n (S c)); [|lia|intros k Hk; rewrite (upp_gt k c), Rmult_0_r by lia; assumption]. simpl. rewrite low_lt, upp_le by lia. reflexivity. }
      rewrite (CUT (fun z => z) eq_refl), (CUT Rabs Rabs_R0). pose proof (proj1 DO r c ltac:(lia) SK) as Q.
      set (ks := filter (fun k => sky e r k && sky e k c) (seq 0 c)) in Q.
      pose proof (div_err rnd u RE U0 U1 (L r) (fun k => U k c) (mvalN e r c) ks (U c c) (L r c) (PIV c Hc) Q) as D.
      unfold ks in D; cbn beta in D.
      rewrite (terms (fun z => z) r c c eq_refl Hr Hc ltac:(lia) ltac:(lia)), (terms Rabs r c c Rabs_R0 Hr Hc ltac:(lia) ltac:(lia)) in D.
      rewrite Rabs_minus_sym. match goal with |- Rabs (?a - (?b + ?d)) <= _ => replace (a - (b + d)) with (a - b - d) by ring end. eapply Rle_trans; [exact D|].
      apply Rmult_le_compat_r; [apply Rplus_le_le_0_compat; [apply rsum_nonneg; intros; apply Rabs_pos|apply Rabs_pos]|]. apply gg_mono; [assumption|assumption|].
      pose proof (filter_length_le (fun k => sky e r k && sky e k c) (seq 0 c)) as FL. rewrite seq_length in FL. lia.
    + assert (CUT : forall F, F 0 = 0 -> rsum n (fun k => F (lowR L r k * uppR U k c)) = rsum r (fun k => F (lowR L r k * uppR U k c)) + F (U r c)).
      { intros F F0. rewrite (rsum_cut n (S r)); [|lia|intros k Hk; rewrite (low_gt r k), Rmult_0_l by lia; assumption]. simpl. rewrite low_eq, upp_le, Rmult_1_l by lia. reflexivity. }
      rewrite (CUT (fun z => z) eq_refl), (CUT Rabs Rabs_R0). pose proof (proj2 DO r c ltac:(lia) SK) as Q.
      set (ks := filter (fun k => sky e r k && sky e k c) (seq 0 r)) in Q.
      pose proof (minus_err' rnd u RE U0 U1 (L r) (fun k => U k c) (mvalN e r c) ks (U r c) Q) as D. cbn zeta in D.
      unfold ks in D; cbn beta in D.
      rewrite (terms (fun z => z) r c r eq_refl Hr Hc ltac:(lia) ltac:(lia)), (terms Rabs r c r Rabs_R0 Hr Hc ltac:(lia) ltac:(lia)) in D.
      rewrite Rabs_minus_sym. match goal with |- Rabs (?a - (?b + ?d)) <= _ => replace (a - (b + d)) with (a - b - d) by ring end. eapply Rle_trans; [exact D|].
      apply Rmult_le_compat_r; [apply Rplus_le_le_0_compat; [apply rsum_nonneg; intros; apply Rabs_pos|apply Rabs_pos]|]. apply gg_mono; [assumption|assumption|].
      pose proof (filter_length_le (fun k => sky e r k && sky e k c) (seq 0 r)) as FL. rewrite seq_length in FL. lia.
  - assert (Z : rsum n (fun k => lowR L r k * uppR U k c) = 0).
    { apply rsum_zero. intros k Hk. destruct (Nat.lt_ge_cases c r) as [LT|GE].
      - destruct (Nat.le_gt_cases k c) as [KC|KC]; [|rewrite upp_gt by assumption; ring]. rewrite low_lt by lia. rewrite (proj1 (OUT r k Hr Hk (sky_row r c k ltac:(lia) SK)) ltac:(lia)). ring.
      - destruct (Nat.le_gt_cases k r) as [KR|KR]; [|rewrite low_gt by assumption; ring]. rewrite upp_le by lia. rewrite (proj2 (OUT k c Hk Hc (sky_col r c k ltac:(lia) SK)) ltac:(lia)). ring. }
    assert (M : mvalN e r c = 0). { apply (mval_notinN e). intros S. apply sky_stored in S. congruence. }
    rewrite Z. change (mvalN e r c) with (mvalN e r c : R). rewrite M, Rminus_0_r, Rabs_R0. apply Rmult_le_pos; [assumption|]. apply rsum_nonneg. intros; apply Rabs_pos.
Qed.

Hypothesis CO : coversN e n.
Lemma sky_reaches r k : (r < k < n)%nat -> sky e r k = true -> reaches e r k = true.
Proof.
  intros Hk SK. unfold sky in SK. destruct (Nat.ltb_spec k r); [lia|]. apply (existsb_keys (fun a b => (b =? k) && (a <=? r))%nat) in SK. destruct SK as [r' [c' [S E]]].
  apply andb_true_iff in E as [E1 E2]. apply Nat.eqb_eq in E1. apply Nat.leb_le in E2. subst c'. destruct (CO r k Hk) as [c2 [H2 S2]]; [exists r'; split; assumption|].
  unfold reaches. apply (existsb_keys (fun a b => (a =? r) && (k <=? b))%nat). exists r, c2. split; [assumption|]. rewrite Nat.eqb_refl. apply Nat.leb_le. assumption.
Qed.

Section Solve.
Context (b y x : nat -> R).
Hypothesis SU : substituted e n L U b y x.
Lemma forward_err r : (r < n)%nat -> Rabs (b r - rsum n (fun k => lowR L r k * y k)) <= G * rsum n (fun k => Rabs (lowR L r k) * Rabs (y k)).
Proof.
  intros Hr. rewrite (rsum_ext n (fun k => Rabs (lowR L r k) * Rabs (y k)) (fun k => Rabs (lowR L r k * y k))) by (intros; symmetry; apply Rabs_mult).
  assert (CUT : forall F, F 0 = 0 -> rsum n (fun k => F (lowR L r k * y k)) = lsum (fun k => F (L r k * y k)) (filter (sky e r) (seq 0 r)) + F (y r)).
  { intros F F0. rewrite (rsum_cut n (S r)); [|lia|intros k Hk; rewrite (low_gt r k), Rmult_0_l by lia; assumption]. simpl. rewrite low_eq, Rmult_1_l. f_equal.
    rewrite lsum_filter; [rewrite lsum_seq; apply rsum_ext; intros k Hk; rewrite low_lt by lia; reflexivity|].
    intros k Hk E. apply in_seq in Hk. rewrite (proj1 (OUT r k Hr ltac:(lia) E) ltac:(lia)), Rmult_0_l. assumption. }
  rewrite (CUT (fun z => z) eq_refl), (CUT Rabs Rabs_R0). pose proof (proj1 SU r Hr) as Q. set (ks := filter (sky e r) (seq 0 r)) in *.
  pose proof (minus_err' rnd u RE U0 U1 (L r) y (b r) ks (y r) Q) as D. cbn zeta in D.
  match goal with |- Rabs (?a - (?b + ?d)) <= _ => replace (a - (b + d)) with (a - b - d) by ring end. eapply Rle_trans; [exact D|].
  apply Rmult_le_compat_r; [apply Rplus_le_le_0_compat; [apply lsum_nonneg; intros; apply Rabs_pos|apply Rabs_pos]|]. apply gg_mono; [assumption|assumption|].
  pose proof (filter_length_le (sky e r) (seq 0 r)) as FL. rewrite seq_length in FL. fold ks in FL. lia.
Qed.
Lemma backward_err r : (r < n)%nat -> Rabs (y r - rsum n (fun k => uppR U r k * x k)) <= G * rsum n (fun k => Rabs (uppR U r k) * Rabs (x k)).
Proof.
  intros Hr. rewrite (rsum_ext n (fun k => Rabs (uppR U r k) * Rabs (x k)) (fun k => Rabs (uppR U r k * x k))) by (intros; symmetry; apply Rabs_mult).
  set (ks := filter (fun k => sky e r k && reaches e r k) (seq (S r) (n - S r))).
  assert (CUT : forall F, F 0 = 0 -> rsum n (fun k => F (uppR U r k * x k)) = lsum (fun k => F (U r k * x k)) ks + F (x r * U r r)).
  { intros F F0. rewrite (rsum_split n r) by assumption. rewrite rsum_zero by (intros k Hk; rewrite upp_gt, Rmult_0_l by assumption; assumption). rewrite (upp_le r r) by lia. rewrite (Rmult_comm (U r r)).
    unfold ks. rewrite lsum_filter.
    - rewrite (lsum_ext (fun k => F (uppR U r k * x k)) (fun k => F (U r k * x k))); [ring|]. intros k Hk. apply in_seq in Hk. rewrite upp_le by lia. reflexivity.
    - intros k Hk E. apply in_seq in Hk. assert (SK : sky e r k = false). { destruct (sky e r k) eqn:K; [|reflexivity]. rewrite (sky_reaches r k ltac:(lia) K) in E. discriminate E. }
      rewrite (proj2 (OUT r k Hr ltac:(lia) SK) ltac:(lia)), Rmult_0_l. assumption. }
  rewrite (CUT (fun z => z) eq_refl), (CUT Rabs Rabs_R0). pose proof (proj2 SU r Hr) as Q. fold ks in Q.
  pose proof (div_err rnd u RE U0 U1 (U r) x (y r) ks (U r r) (x r) (PIV r Hr) Q) as D.
  match goal with |- Rabs (?a - (?b + ?d)) <= _ => replace (a - (b + d)) with (a - b - d) by ring end. eapply Rle_trans; [exact D|].
  apply Rmult_le_compat_r; [apply Rplus_le_le_0_compat; [apply lsum_nonneg; intros; apply Rabs_pos|apply Rabs_pos]|]. apply gg_mono; [assumption|assumption|].
  pose proof (filter_length_le (fun k => sky e r k && reaches e r k) (seq (S r) (n - S r))) as FL. rewrite seq_length in FL. fold ks in FL. lia.
Qed.
Lemma residual_err r : (r < n)%nat -> Rabs (rsum n (fun c => mvalN e r c * x c) - b r) <= (3 * G + G * G) * rsum n (fun k => Rabs (lowR L r k) * rsum n (fun c => Rabs (uppR U k c) * Rabs (x c))).
Proof.
  intros Hr. pose proof G0 as HG. set (Vk := fun k => rsum n (fun c => Rabs (uppR U k c) * Rabs (x c))). set (W := rsum n (fun k => Rabs (lowR L r k) * Vk k)).
  set (ux := fun k => rsum n (fun c => uppR U k c * x c)).
  assert (V0 : forall k, 0 <= Vk k) by (intros k; apply rsum_nonneg; intros; apply Rmult_le_pos; apply Rabs_pos).
  assert (E1 : Rabs (rsum n (fun c => mvalN e r c * x c) - rsum n (fun k => lowR L r k * ux k)) <= G * W).
  { assert (X : rsum n (fun k => lowR L r k * ux k) = rsum n (fun c => rsum n (fun k => lowR L r k * uppR U k c) * x c)).
    { unfold ux. transitivity (rsum n (fun k => rsum n (fun c => lowR L r k * (uppR U k c * x c)))); [apply rsum_ext; intros; apply rsum_mulr|]. rewrite rsum_swap. apply rsum_ext. intros c Hc.
      rewrite rsum_mult. apply rsum_ext. intros. ring. }
    rewrite X, rsum_minus. eapply Rle_trans; [apply rsum_abs|].
    apply Rle_trans with (rsum n (fun c => G * rsum n (fun k => Rabs (lowR L r k) * Rabs (uppR U k c)) * Rabs (x c))).
    - apply rsum_le. intros c Hc. rewrite <- Rmult_minus_distr_r, Rabs_mult. apply Rmult_le_compat_r; [apply Rabs_pos|]. rewrite Rabs_minus_sym. apply product_err; assumption.
    - right. unfold W, Vk. rewrite rsum_mulr. transitivity (rsum n (fun c => rsum n (fun k => G * (Rabs (lowR L r k) * (Rabs (uppR U k c) * Rabs (x c)))))).
      + apply rsum_ext. intros c Hc. rewrite Rmult_assoc, rsum_mult, rsum_mulr. apply rsum_ext. intros. ring.
      + rewrite rsum_swap. apply rsum_ext. intros k Hk. rewrite <- rsum_mulr. f_equal. symmetry. apply rsum_mulr. }
  assert (E2 : Rabs (rsum n (fun k => lowR L r k * ux k) - rsum n (fun k => lowR L r k * y k)) <= G * W).
  { rewrite rsum_minus. eapply Rle_trans; [apply rsum_abs|]. unfold W. rewrite rsum_mulr. apply rsum_le. intros k Hk. rewrite <- Rmult_minus_distr_l, Rabs_mult.
    replace (G * (Rabs (lowR L r k) * Vk k)) with (Rabs (lowR L r k) * (G * Vk k)) by ring. apply Rmult_le_compat_l; [apply Rabs_pos|]. rewrite Rabs_minus_sym. apply backward_err. assumption. }
  assert (E3 : Rabs (rsum n (fun k => lowR L r k * y k) - b r) <= G * ((1 + G) * W)).
  { rewrite Rabs_minus_sym. eapply Rle_trans; [apply forward_err; assumption|]. apply Rmult_le_compat_l; [assumption|]. unfold W. rewrite rsum_mulr. apply rsum_le. intros k Hk.
    replace ((1 + G) * (Rabs (lowR L r k) * Vk k)) with (Rabs (lowR L r k) * ((1 + G) * Vk k)) by ring. apply Rmult_le_compat_l; [apply Rabs_pos|].
    replace (y k) with ((y k - ux k) + ux k) by ring. eapply Rle_trans; [apply Rabs_triang|]. replace ((1 + G) * Vk k) with (G * Vk k + Vk k) by ring. apply Rplus_le_compat; [apply backward_err; assumption|].
    unfold ux, Vk. eapply Rle_trans; [apply rsum_abs|]. right. apply rsum_ext. intros. apply Rabs_mult. }
  match goal with |- Rabs (?a - ?b) <= _ => replace (a - b) with ((a - rsum n (fun k => lowR L r k * ux k)) + (rsum n (fun k => lowR L r k * ux k) - rsum n (fun k => lowR L r k * y k)) + (rsum n (fun k => lowR L r k * y k) - b)) by ring end.
  eapply Rle_trans; [apply Rabs_triang|]. eapply Rle_trans; [apply Rplus_le_compat_r; apply Rabs_triang|]. change (rsum n (fun k => Rabs (lowR L r k) * rsum n (fun c => Rabs (uppR U k c) * Rabs (x c)))) with W. replace ((3 * G + G * G) * W) with (G * W + G * W + G * ((1 + G) * W)) by ring. apply Rplus_le_compat; [apply Rplus_le_compat|]; assumption.
Qed.
End Solve.
End Err.

Lemma lu_backward rnd u n (e : entriesN (FNum rnd)) : relative rnd u -> 0 <= u -> INR n * u < 1 -> distinct_keys e -> acceptableN e n ->
  exists st st' L U, setMatrixN e = Ret st /\ factorizeN st = Ret st' /\ factorsN st' e n L U /\
    ((forall c, (c < n)%nat -> U c c <> 0) ->
      (forall r c, (r < n)%nat -> (c < n)%nat -> Rabs (rsum n (fun k => lowR L r k * uppR U k c) - mvalN e r c) <= gam n u * rsum n (fun k => Rabs (lowR L r k) * Rabs (uppR U k c))) /\
      (coversN e n -> forall b, length b = n -> exists x, solveN st b = Ret (st', x) /\ solveN st' b = Ret (st', x) /\ length x = n /\
        forall r, (r < n)%nat -> Rabs (rsum n (fun c => mvalN e r c * cmpR x c) - cmpR b r) <=
          (3 * gam n u + gam n u * gam n u) * rsum n (fun k => Rabs (lowR L r k) * rsum n (fun c => Rabs (uppR U k c) * Rabs (cmpR x c))))).
Proof.
  intros RE U0 NU ND HA. destruct (any_lu e n ND HA) as [st [st' [L [U [E1 [E2 [_ [FA [DO SO]]]]]]]]]. exists st, st', L, U. split; [exact E1|]. split; [exact E2|]. split; [exact FA|]. intros PIV.
  assert (U1 : (0 < n)%nat -> u < 1). { intros Hn. assert (1 <= INR n) by (apply (le_INR 1); lia). assert (1 * u <= INR n * u) by (apply Rmult_le_compat_r; lra). lra. }
  split.
  - intros r c Hr Hc. assert (u1 : u < 1) by (apply U1; lia). eapply Rle_trans; [apply (product_err rnd u n e L U RE U0 u1 (proj2 (proj2 FA)) DO PIV r c Hr Hc)|].
    apply Rmult_le_compat_r; [apply rsum_nonneg; intros; apply Rmult_le_pos; apply Rabs_pos|]. apply gg_gam; assumption.
  - intros CO b Lb. destruct (SO b) as [x [y [S1 [S2 [Lx [_ SU]]]]]]; [lia|]. exists x. split; [exact S1|]. split; [exact S2|]. split; [lia|]. intros r Hr.
    assert (u1 : u < 1) by (apply U1; lia). eapply Rle_trans; [apply (residual_err rnd u n e L U RE U0 u1 (proj2 (proj2 FA)) DO PIV CO (cmpR b) y (cmpR x) SU r Hr)|].
    apply Rmult_le_compat_r; [apply rsum_nonneg; intros; apply Rmult_le_pos; [apply Rabs_pos|apply rsum_nonneg; intros; apply Rmult_le_pos; apply Rabs_pos]|].
    pose proof (gg_gam u n U0 u1 NU). pose proof (gg_pos u U0 u1 n). assert (gg u n * gg u n <= gam n u * gam n u) by (apply Rmult_le_compat; assumption). lra.
Qed.
#[local] Instance prec53' : Prec_gt_0 53 := eq_refl.
Lemma binary53_relative : relative binary53 (/ 2 ^ 53).
Proof.
  intros z. unfold binary53. pose proof (relative_error_N_FLX radix2 53 (eq_refl : (0 < 53)%Z) (fun x => negb (Z.even x)) z) as H.
  assert (B1 : / 2 * bpow radix2 (-53 + 1) = / 2 ^ 53).
  { change (-53 + 1)%Z with (Z.opp 52). rewrite bpow_opp. rewrite <- IZR_Zpower by discriminate. rewrite (pow_IZR 2 53). rewrite <- Rinv_mult. rewrite <- mult_IZR. reflexivity. }
  exact (eq_ind _ (fun v => Rabs (round radix2 (FLX_exp 53) ZnearestE z - z) <= v * Rabs z) H _ B1).
Qed.

Lemma same_lu : (forall e, setMatrixN (N:=QcNum) e = (st <- setMatrix e ;; Ret (asN st))) /\
  (forall st, factorizeN (asN st) = (st' <- factorize st ;; Ret (asN st'))) /\
  (forall st b, solveN (asN st) b = (r <- solve st b ;; Ret (asN (fst r), snd r))).
Proof.
  assert (FA : forall st, factorizeN (asN st) = (st' <- factorize st ;; Ret (asN st'))).
  { intros [y l u f]. unfold factorizeN, factorize, asN. cbn [nfact nlay nl nu ufact ulay ul uu]. destruct f; [reflexivity|].
    change (ofor 0 (length (yp y)) (fact_stepN (N:=QcNum) y) (l, u)) with (ofor 0 (length (yp y)) (fact_step y) (l, u)).
    destruct (ofor 0 (length (yp y)) (fact_step y) (l, u)) as [p| |]; reflexivity. }
  split; [|split; [exact FA|]].
  - intros e. unfold setMatrixN, setMatrix. change (mat_nrN (N:=QcNum) e) with (mat_nr e). change (mat_ncN (N:=QcNum) e) with (mat_nc e). destruct (negb (mat_nr e =? mat_nc e)%nat); [reflexivity|]. cbn zeta.
    change (scan_pN (N:=QcNum) (mat_nr e) e) with (scan_p (mat_nr e) e). change (scan_qN (N:=QcNum) (mat_nr e) e) with (scan_q (mat_nr e) e). change (scan_sN (N:=QcNum) (mat_nr e) e) with (scan_s (mat_nr e) e).
    destruct (negb (stencil_ok _ _ _)); [reflexivity|].
    match goal with |- obind ?a _ = obind (obind ?b _) _ => change a with b; destruct b as [p| |]; reflexivity end.
  - intros st b. unfold solveN, solve. rewrite FA. destruct (factorize st) as [st1| |]; try reflexivity. cbn [obind].
    change (nlay (asN st1)) with (ulay st1). change (nl (asN st1)) with (ul st1). change (nu (asN st1)) with (uu st1).
    match goal with |- obind ?a _ = obind (obind ?b _) _ => change a with b; destruct b as [x1| |]; try reflexivity end. cbn [obind].
    match goal with |- obind ?a _ = obind (obind ?b _) _ => change a with b; destruct b as [x2| |]; reflexivity end.
Qed.
