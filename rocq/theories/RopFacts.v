(** RopFacts.v - rounding errors of sums of products. *)
From Coq Require Import List Arith Bool Lia QArith Qcanon Reals Lra.
From Verif Require Import Base BaseFacts SMap SpModel SpSpec SpFacts SpFacts2 SpFacts3 VecModel VecSpec VecFacts ConvSpec ConvFacts ConvFacts3 StepSpec FpSpec LufSpec LufFacts3 LufFacts4 RopSpec.
Import ListNotations.
Local Open Scope R_scope.

Lemma asum_app {A} (f : A -> R) a b : asum f (a ++ b) = asum f a + asum f b.
Proof. induction a as [|x a I]; simpl; [ring|]. rewrite I. ring. Qed.
Lemma asum_nonneg {A} (f : A -> R) l : (forall a, 0 <= f a) -> 0 <= asum f l.
Proof. intros H. induction l as [|x l I]; simpl; [lra|]. specialize (H x). lra. Qed.
Lemma asum_abs {A} (f : A -> R) l : Rabs (asum f l) <= asum (fun a => Rabs (f a)) l.
Proof. induction l as [|x l I]; simpl; [rewrite Rabs_R0; lra|]. eapply Rle_trans; [apply Rabs_triang|]. lra. Qed.

Section Rnd.
Context (rnd : R -> R) (u : R).
Hypothesis RE : relative rnd u.
Hypothesis U0 : 0 <= u.
Definition hh (m : nat) : R := (1 + u) ^ m - 1.
Lemma hh0 m : 0 <= hh m. Proof. unfold hh. pose proof (pow_R1_Rle (1 + u) m ltac:(lra)). lra. Qed.
Lemma hh_mono a b : (a <= b)%nat -> hh a <= hh b. Proof. intros H. unfold hh. pose proof (Rle_pow (1 + u) a b ltac:(lra) H). lra. Qed.
Lemma hh_gam m : u < 1 -> INR m * u < 1 -> hh m <= gam m u.
Proof.
  intros U1 H. eapply Rle_trans; [|apply gg_gam; assumption]. unfold hh, gg. apply Rplus_le_compat_r. apply pow_incr. split; [lra|]. apply one_plus; assumption.
Qed.
Lemma rnd0 : rnd 0 = 0.
Proof. pose proof (RE 0) as H. rewrite Rabs_R0, Rmult_0_r, Rminus_0_r in H. destruct (Req_dec (rnd 0) 0) as [Z|Z]; [exact Z|]. apply Rabs_pos_lt in Z. lra. Qed.

(** s <- s + t a, where t a is v a up to the relative error d *)
Lemma sum_err {A} (t v : A -> R) d : 0 <= d -> (forall a, Rabs (t a - v a) <= d * Rabs (v a)) -> forall l,
  Rabs (fold_left (fun s a => rnd (s + t a)) l 0 - asum v l) <= ((1 + u) ^ length l * (1 + d) - 1) * asum (fun a => Rabs (v a)) l.
Proof.
  intros D0 TE l. induction l as [|a l I] using rev_ind; [simpl; rewrite Rminus_eq_0, Rabs_R0; lra|].
  rewrite fold_left_app, !asum_app, app_length. simpl. rewrite Nat.add_1_r, !Rplus_0_r. set (s := fold_left _ l 0) in *. set (S1 := asum v l) in *. set (S2 := asum (fun a => Rabs (v a)) l) in *. set (w := (1 + u) ^ length l) in *.
  assert (W1 : 1 <= w) by (apply pow_R1_Rle; lra). assert (S0 : 0 <= S2) by (apply asum_nonneg; intros; apply Rabs_pos). assert (SA : Rabs S1 <= S2) by apply asum_abs.
  pose proof (TE a) as T1. pose proof (RE (s + t a)) as T2. set (p := v a) in *. pose proof (Rabs_pos p) as P0.
  assert (T3 : Rabs (s + t a) <= w * (1 + d) * S2 + (1 + d) * Rabs p).
  { replace (s + t a) with ((s - S1) + S1 + (t a - p) + p) by ring. pose proof (Rabs_triang ((s - S1) + S1 + (t a - p)) p). pose proof (Rabs_triang ((s - S1) + S1) (t a - p)). pose proof (Rabs_triang (s - S1) S1). lra. }
  replace (rnd (s + t a) - (S1 + p)) with ((rnd (s + t a) - (s + t a)) + (s - S1) + (t a - p)) by ring.
  pose proof (Rabs_triang ((rnd (s + t a) - (s + t a)) + (s - S1)) (t a - p)). pose proof (Rabs_triang (rnd (s + t a) - (s + t a)) (s - S1)).
  assert (T4 : u * Rabs (s + t a) <= u * (w * (1 + d) * S2 + (1 + d) * Rabs p)) by (apply Rmult_le_compat_l; assumption).
  assert (T5 : 0 <= (w - 1) * ((1 + u) * (1 + d) * Rabs p)). { apply Rmult_le_pos; [lra|]. apply Rmult_le_pos; [apply Rmult_le_pos; lra|assumption]. }
  change ((1 + u) ^ S (length l)) with ((1 + u) * w). lra.
Qed.
Lemma sum_err' {A} (t v : A -> R) l : (forall a, t a = v a) ->
  Rabs (fold_left (fun s a => rnd (s + t a)) l 0 - asum v l) <= hh (length l) * asum (fun a => Rabs (v a)) l.
Proof.
  intros E. pose proof (sum_err t v 0 ltac:(lra) ltac:(intros a; rewrite E, Rminus_eq_0, Rabs_R0; lra) l) as H. unfold hh. eapply Rle_trans; [exact H|]. right. ring.
Qed.
Lemma dot_err {A} (f g : A -> R) l :
  Rabs (fold_left (fun s a => rnd (s + rnd (f a * g a))) l 0 - asum (fun a => f a * g a) l) <= hh (S (length l)) * asum (fun a => Rabs (f a * g a)) l.
Proof.
  pose proof (sum_err (fun a => rnd (f a * g a)) (fun a => f a * g a) u U0 (fun a => RE _) l) as H. unfold hh. simpl pow. eapply Rle_trans; [exact H|]. right. ring.
Qed.
End Rnd.

(** ** vectors *)
Lemma asum_nth (f : nat -> R) n : asum f (seq 0 n) = rsum n f.
Proof. exact (lsum_seq f n). Qed.
Lemma asum_list {A} (f : A -> R) (d : A) (l : list A) : asum f l = rsum (length l) (fun i => f (nth i l d)).
Proof.
  induction l as [|a l I] using rev_ind; [reflexivity|]. rewrite asum_app, app_length. simpl. rewrite Nat.add_1_r. simpl. rewrite I, app_nth2, Nat.sub_diag by lia. simpl. rewrite Rplus_0_r. f_equal.
  apply rsum_ext. intros i Hi. rewrite app_nth1 by assumption. reflexivity.
Qed.
Lemma nmaxF rnd (s x : R) : nmax (FNum rnd) s x = Rmax s x.
Proof. unfold nmax. cbn. unfold Rltb. destruct (Rlt_dec s x); [rewrite Rmax_right; lra|rewrite Rmax_left; lra]. Qed.

Section Vec.
Context (rnd : R -> R) (u : R).
Hypothesis RE : relative rnd u.
Hypothesis U0 : 0 <= u.
Implicit Types (m : mem (FNum rnd)) (e : vexpr (FNum rnd)).
Lemma gam_arg k (m : nat) : INR k * u < 1 -> (m <= k)%nat -> (1 <= k)%nat -> u < 1 /\ INR m * u < 1.
Proof.
  intros H L1 L2. assert (1 <= INR k) by (apply (le_INR 1); assumption). assert (INR m <= INR k) by (apply le_INR; assumption).
  assert (1 * u <= INR k * u) by (apply Rmult_le_compat_r; assumption). assert (INR m * u <= INR k * u) by (apply Rmult_le_compat_r; assumption). lra.
Qed.
Lemma vdot_fold m a b la lb : well_formed m a -> well_formed m b -> (vsize m a <= vsize m b)%nat -> elements m a la -> elements m b lb ->
  vdot m a b = Ret (fold_left (fun s i => rnd (s + rnd (cmpR la i * cmpR lb i))) (seq 0 (length la)) 0).
Proof.
  intros WA WB SZ EA EB. apply elements_eq in EA; [|assumption]. apply elements_eq in EB; [|assumption]. subst la lb.
  assert (LA : length (elems m a) = vsize m a) by (unfold elems; rewrite map_length, seq_length; reflexivity).
  change (@length R (elems m a)) with (@length (nT (FNum rnd)) (elems m a)). rewrite LA. unfold vdot.
  destruct (ofor_inv (fun k (s : R) => s = fold_left (fun s i => rnd (s + rnd (cmpR (elems m a) i * cmpR (elems m b) i))) (seq 0 k) 0) 0 (vsize m a)
     (fun i (s : R) => x <- vat m a i ;; y <- vat m b i ;; Ret (rnd (s + rnd (x * y)))) 0) as [s [E Q]].
  - lia.
  - reflexivity.
  - intros i s Hi ->. destruct (getd_ok m a i WA ltac:(lia)) as [Q1 _]. destruct (getd_ok m b i WB ltac:(lia)) as [Q2 _].
    change (nT (FNum rnd)) with R in *. rewrite Q1, Q2. cbn [obind]. eexists; split; [reflexivity|]. rewrite seq_S, fold_left_app. cbn [fold_left plus]. unfold cmpR, elems.
    rewrite !(nth_indep (map _ _) 0 (n0 (FNum rnd))) by (rewrite map_length, seq_length; lia). rewrite !nth_map_seq by lia. reflexivity.
  - subst s. exact E.
Qed.
Lemma dot_rounded m a b la lb : well_formed m a -> well_formed m b -> (vsize m a <= vsize m b)%nat -> elements m a la -> elements m b lb -> INR (S (length la)) * u < 1 ->
  exists r : R, vdot m a b = Ret r /\ Rabs (r - rsum (length la) (fun i => cmpR la i * cmpR lb i)) <= gam (S (length la)) u * rsum (length la) (fun i => Rabs (cmpR la i * cmpR lb i)).
Proof.
  intros WA WB SZ EA EB NU. eexists. split; [apply (vdot_fold m a b la lb); assumption|]. destruct (gam_arg _ _ NU (le_n _) ltac:(lia)) as [U1 _].
  pose proof (dot_err rnd u RE U0 (cmpR la) (cmpR lb) (seq 0 (length la))) as H. rewrite !asum_nth, seq_length in H. eapply Rle_trans; [exact H|].
  apply Rmult_le_compat_r; [apply rsum_nonneg; intros; apply Rabs_pos|]. apply hh_gam; assumption.
Qed.
Lemma norms_rounded m e l : well_formed m e -> elements m e l -> INR (S (length l)) * u < 1 ->
  (exists r : R, vinfnorm m e = Ret r /\ (forall x, In x l -> Rabs x <= r) /\ ((l = [] /\ r = 0) \/ exists x, In x l /\ r = Rabs x)) /\
  (exists r : R, vonenorm m e = Ret r /\ Rabs (r - rsum (length l) (fun i => Rabs (cmpR l i))) <= gam (length l) u * rsum (length l) (fun i => Rabs (cmpR l i))) /\
  (exists r : R, veuclsq m e = Ret r /\ Rabs (r - rsum (length l) (fun i => cmpR l i * cmpR l i)) <= gam (S (length l)) u * rsum (length l) (fun i => cmpR l i * cmpR l i)).
Proof.
  intros W EL NU. apply elements_eq in EL; [|assumption]. destruct (gam_arg _ _ NU (Nat.le_succ_diag_r (length l)) ltac:(lia)) as [U1 NU1]. subst l.
  unfold vinfnorm, vonenorm, veuclsq. rewrite vread_ok by assumption. set (l := elems m e) in *. cbn [obind]. change (nT (FNum rnd)) with R in *.
  split; [|split]; (eexists; split; [reflexivity|]).
  - assert (G : forall (l : list R) s, 0 <= s -> let r := fold_left (fun s x => nmax (FNum rnd) s (nabs (FNum rnd) x)) l s in s <= r /\ (forall x, In x l -> Rabs x <= r) /\ (r = s \/ exists x, In x l /\ r = Rabs x)).
    { clear. induction l as [|x l I]; intros s S0; cbn [fold_left]; [cbn; repeat split; [lra|tauto|left; reflexivity]|]. rewrite nmaxF. change (nabs (FNum rnd) x) with (Rabs x).
      pose proof (Rmax_l s (Rabs x)). pose proof (Rmax_r s (Rabs x)). destruct (I (Rmax s (Rabs x)) ltac:(lra)) as [A [B C]]. cbn zeta in *. split; [lra|]. split.
      - intros y [->|Hy]; [lra|apply B; exact Hy].
      - destruct C as [C|[y [Hy C]]]; [|right; exists y; split; [right; exact Hy|exact C]]. rewrite C. unfold Rmax. destruct (Rle_dec s (Rabs x)); [right; exists x; split; [left|]; reflexivity|left; reflexivity]. }
    destruct (G l 0 ltac:(lra)) as [A [B C]]. split; [exact B|]. destruct C as [C|C]; [|right; exact C]. destruct l as [|x l']; [left; split; [reflexivity|exact C]|].
    right. exists x. split; [left; reflexivity|]. pose proof (Rle_trans _ _ _ (B x (or_introl eq_refl)) (Req_le _ _ C)). pose proof (Rabs_pos x). transitivity 0; [exact C|]. lra.
  - pose proof (sum_err' rnd u RE U0 (fun x => Rabs x) (fun x => Rabs x) l (fun _ => eq_refl)) as H. rewrite !(asum_list _ 0) in H. rewrite (rsum_ext _ (fun i => Rabs (Rabs (nth i l 0))) (fun i => Rabs (nth i l 0))) in H by (intros; apply Rabs_Rabsolu).
    eapply Rle_trans; [exact H|]. apply Rmult_le_compat_r; [apply rsum_nonneg; intros; apply Rabs_pos|]. apply hh_gam; assumption.
  - pose proof (dot_err rnd u RE U0 (fun x => x) (fun x => x) l) as H. rewrite !(asum_list _ 0) in H. rewrite (rsum_ext _ (fun i => Rabs (nth i l 0 * nth i l 0)) (fun i => nth i l 0 * nth i l 0)) in H by (intros; apply Rabs_pos_eq; apply Rle_0_sqr).
    eapply Rle_trans; [exact H|]. apply Rmult_le_compat_r; [apply rsum_nonneg; intros; apply Rle_0_sqr|]. apply hh_gam; assumption.
Qed.
End Vec.
