(** VdFacts.v - sums of products of doubles: no overflow, rounding errors with gradual underflow, NaN. *)
From Coq Require Import List Arith Bool ZArith Lia Reals Lra.
From Flocq Require Import Core IEEE754.BinarySingleNaN.
From Verif Require Import Base BaseFacts VecModel VecSpec VecFacts ConvSpec ConvFacts ConvFacts3 StepSpec FpSpec FpFacts FpFacts4 LufSpec LufFacts3 RopSpec RopFacts IeeeSpec IeeeFacts VdSpec.
Import ListNotations.
Local Open Scope R_scope.
Notation eta := (/ 2 ^ 1075).

Lemma pow_small k : INR k * U <= / 4 -> 1 <= (1 + U) ^ k <= 4 / 3.
Proof.
  intros H. pose proof u_small as [U0 U1]. split; [apply pow_R1_Rle; lra|]. pose proof (hh_gam U ltac:(lra) k ltac:(lra) ltac:(lra)) as G. unfold hh, gam in G.
  assert (INR k * U / (1 - INR k * U) <= / 3); [|lra]. apply Rmult_le_reg_r with (1 - INR k * U); [lra|]. unfold Rdiv. rewrite Rmult_assoc, Rinv_l by lra. lra.
Qed.
Section Sum.
Context {A : Type} (tD : A -> double) (p v : A -> R).
Definition term_ok (l : list A) : Prop := forall a, In a l -> holds (tD a) (p a) /\ Rabs (p a - v a) <= U * Rabs (v a) + eta.
Notation S_ := (asum (fun a => Rabs (v a))).
Lemma sum_holds l : term_ok l -> S_ l <= 2 ^ 1000 -> INR (S (length l)) * U <= / 4 ->
  exists r, holds (fold_left (fun s a => nadd DNum s (tD a)) l dzero) r /\ Rabs (r - asum v l) <= ((1 + U) ^ S (length l) - 1) * S_ l + 2 * INR (length l) * eta * (1 + U) ^ length l.
Proof.
  induction l as [|a l I] using rev_ind.
  - intros _ _ _. exists 0. split; [exact d_zero|]. simpl. rewrite Rminus_0_r, Rabs_R0. lra.
  - intros T B N. rewrite asum_app, app_length, Nat.add_1_r in *. cbn [asum fold_right] in *. rewrite Rplus_0_r in *. rewrite asum_app. cbn [asum fold_right]. rewrite Rplus_0_r.
    assert (S0 : 0 <= S_ l) by (apply asum_nonneg; intros; apply Rabs_pos). pose proof (Rabs_pos (v a)) as V0. pose proof u_small as [U0 U1]. pose proof eta_small as [E0 E1].
    set (k := length l) in *. pose proof (pos_INR k) as K0. assert (N' : INR (S k) * U <= / 4). { rewrite !S_INR in *. lra. }
    destruct I as (r & HR & ER); [intros x Hx; apply T; apply in_or_app; left; exact Hx|lra|exact N'|].
    destruct (T a ltac:(apply in_or_app; right; left; reflexivity)) as [HP EP].
    rewrite fold_left_app. cbn [fold_left]. pose proof (pow_small _ N) as [Q1 Q2]. pose proof (pow_small _ N') as [Q3 Q4]. assert (N2 : INR k * U <= / 4) by (rewrite S_INR in N'; lra). pose proof (pow_small _ N2) as [Q5 Q6].
    set (q := 1 + U) in *. assert (P1 : q ^ S k = q * q ^ k) by reflexivity. assert (P2 : q ^ S (S k) = q * q ^ S k) by reflexivity.
    assert (AT : Rabs (asum v l) <= S_ l) by apply asum_abs.
    assert (C0 : 0 <= 2 * INR k * eta) by (apply Rmult_le_pos; lra).
    assert (C1 : 2 * INR k * eta * q ^ k <= / 2 * (4 / 3)). { apply Rmult_le_compat; [exact C0|lra| |exact Q6]. apply Rle_trans with (2 * INR k * U); [apply Rmult_le_compat_l; lra|lra]. }
    assert (C2 : (q ^ S k - 1) * S_ l <= 1 * S_ l) by (apply Rmult_le_compat_r; lra).
    assert (RB : Rabs r <= 2 * S_ l + 1). { pose proof (Rabs_triang (r - asum v l) (asum v l)) as T1. replace (r - asum v l + asum v l) with r in T1 by ring. lra. }
    assert (UV : U * Rabs (v a) <= 1 * Rabs (v a)) by (apply Rmult_le_compat_r; lra).
    assert (PB : Rabs (p a) <= 2 * Rabs (v a) + 1). { pose proof (Rabs_triang (p a - v a) (v a)) as T1. replace (p a - v a + v a) with (p a) in T1 by ring. lra. }
    pose proof (Rabs_triang r (p a)) as TS. assert (B1 : 1 <= 2 ^ 1000) by (apply pow_R1_Rle; lra).
    exists (b64 (r + p a)). split.
    + apply d_add; [exact HR|exact HP|]. change (Rabs (r + p a) <= 2 ^ 1002). rewrite <- big4. lra.
    + pose proof (proj2 binary64_rounds (r + p a)) as RR. fold U in RR.
      assert (X : Rabs (r + p a - (asum v l + v a)) <= Rabs (r - asum v l) + Rabs (p a - v a)). { replace (r + p a - (asum v l + v a)) with ((r - asum v l) + (p a - v a)) by ring. apply Rabs_triang. }
      assert (Y : Rabs (r + p a) <= Rabs (r - asum v l) + Rabs (p a - v a) + (S_ l + Rabs (v a))).
      { pose proof (Rabs_triang (r + p a - (asum v l + v a)) (asum v l + v a)) as T1. replace (r + p a - (asum v l + v a) + (asum v l + v a)) with (r + p a) in T1 by ring. pose proof (Rabs_triang (asum v l) (v a)). lra. }
      assert (Z : Rabs (b64 (r + p a) - (asum v l + v a)) <= q * Rabs (r - asum v l) + q * Rabs (p a - v a) + U * (S_ l + Rabs (v a)) + eta).
      { pose proof (Rabs_triang (b64 (r + p a) - (r + p a)) (r + p a - (asum v l + v a))) as T1. replace (b64 (r + p a) - (r + p a) + (r + p a - (asum v l + v a))) with (b64 (r + p a) - (asum v l + v a)) in T1 by ring.
        assert (U * Rabs (r + p a) <= U * (Rabs (r - asum v l) + Rabs (p a - v a) + (S_ l + Rabs (v a)))) by (apply Rmult_le_compat_l; lra). unfold q. lra. }
      eapply Rle_trans; [exact Z|]. rewrite (S_INR k).
      assert (W1 : q * Rabs (r - asum v l) <= q * ((q ^ S k - 1) * S_ l + 2 * INR k * eta * q ^ k)) by (apply Rmult_le_compat_l; [unfold q; lra|exact ER]).
      assert (W2 : q * Rabs (p a - v a) <= q * (U * Rabs (v a) + eta)) by (apply Rmult_le_compat_l; [unfold q; lra|exact EP]).
      assert (W3 : (q * U + U) * Rabs (v a) <= (q ^ S (S k) - 1) * Rabs (v a)). { apply Rmult_le_compat_r; [exact V0|]. rewrite P2, P1. assert (q * (q * 1) <= q * (q * q ^ k)) by (apply Rmult_le_compat_l; [unfold q; lra|apply Rmult_le_compat_l; [unfold q; lra|exact Q5]]). unfold q in *. lra. }
      assert (W4 : (q + 1) * eta <= 2 * q ^ S k * eta). { apply Rmult_le_compat_r; [lra|]. rewrite P1. assert (q * 1 <= q * q ^ k) by (apply Rmult_le_compat_l; [unfold q; lra|exact Q5]). unfold q in *. lra. }
      assert (W5 : q * ((q ^ S k - 1) * S_ l) + U * S_ l = (q ^ S (S k) - 1) * S_ l) by (rewrite P2; unfold q; ring).
      rewrite P1 in *. clearbody q. lra.
Qed.
End Sum.
Lemma sum_final k (S e : R) : INR (Datatypes.S k) * U <= / 4 -> 0 <= S -> e <= ((1 + U) ^ Datatypes.S k - 1) * S + 2 * INR k * eta * (1 + U) ^ k -> e <= gam (Datatypes.S k) U * S + INR k * / 2 ^ 1073.
Proof.
  intros N S0 H. pose proof u_small as [U0 U1]. pose proof (hh_gam U ltac:(lra) (Datatypes.S k) ltac:(lra) ltac:(lra)) as G. unfold hh in G. pose proof (pos_INR k) as K0.
  assert (N2 : INR k * U <= / 4) by (rewrite S_INR in N; lra). pose proof (pow_small _ N2) as [Q5 Q6].
  assert (E : / 2 ^ 1073 = 4 * eta). { change 1075%nat with (1073 + 2)%nat. rewrite pow_add. field; apply pow_nonzero; lra. }
  rewrite E. pose proof eta_small as [E0 _]. assert (((1 + U) ^ Datatypes.S k - 1) * S <= gam (Datatypes.S k) U * S) by (apply Rmult_le_compat_r; assumption).
  assert (0 <= INR k * eta) by (apply Rmult_le_pos; lra). assert ((2 * (INR k * eta)) * (1 + U) ^ k <= (2 * (INR k * eta)) * (4 / 3)) by (apply Rmult_le_compat_l; lra). lra.
Qed.
(** The operations as folds, in any arithmetic. *)
Lemma dot_fold {N : Num} (m : mem N) (a b : vexpr N) la lb : well_formed m a -> well_formed m b -> (vsize m a <= vsize m b)%nat -> elements m a la -> elements m b lb ->
  vdot m a b = Ret (fold_left (fun s i => nadd N s (nmul N (nth i la (n0 N)) (nth i lb (n0 N)))) (seq 0 (length la)) (n0 N)) /\ (length la <= length lb)%nat.
Proof.
  intros WA WB SZ EA EB. assert (LL : (length la <= length lb)%nat) by (rewrite <- (proj1 EA), <- (proj1 EB); exact SZ). split; [|exact LL].
  apply elements_eq in EA; [|assumption]. apply elements_eq in EB; [|assumption]. subst la lb.
  assert (LA : length (elems m a) = vsize m a) by (unfold elems; rewrite map_length, seq_length; reflexivity). rewrite LA. unfold vdot.
  destruct (ofor_inv (fun k (s : nT N) => s = fold_left (fun s i => nadd N s (nmul N (nth i (elems m a) (n0 N)) (nth i (elems m b) (n0 N)))) (seq 0 k) (n0 N)) 0 (vsize m a)
     (fun i (s : nT N) => x <- vat m a i ;; y <- vat m b i ;; Ret (nadd N s (nmul N x y))) (n0 N)) as [s [E Q]].
  - lia.
  - reflexivity.
  - intros i s Hi ->. destruct (getd_ok m a i WA ltac:(lia)) as [Q1 _]. destruct (getd_ok m b i WB ltac:(lia)) as [Q2 _].
    rewrite Q1, Q2. cbn [obind]. eexists; split; [reflexivity|]. rewrite seq_S, fold_left_app. cbn [fold_left plus]. unfold elems. rewrite !nth_map_seq by lia. reflexivity.
  - subst s. exact E.
Qed.
Lemma val_holds l i : all_finite l -> (i < length l)%nat -> holds (nth i l dzero) (val l i).
Proof. intros F H. split; [apply F, nth_In, H|reflexivity]. Qed.
Lemma finite_holds l x : all_finite l -> In x l -> holds x (B2R x).
Proof. intros F H. split; [apply F, H|reflexivity]. Qed.
Lemma asum_in {A} (f : A -> R) l x : (forall a, 0 <= f a) -> In x l -> f x <= asum f l.
Proof. intros F. induction l as [|a l I]; [intros []|]. intros [->|H]; simpl; [pose proof (asum_nonneg f l F); lra|]. specialize (I H). specialize (F a). lra. Qed.

Lemma dot_double (m : mem DNum) (a b : vexpr DNum) (la lb : list double) : well_formed m a -> well_formed m b -> (vsize m a <= vsize m b)%nat -> elements m a la -> elements m b lb ->
  all_finite la -> all_finite lb -> rsum (length la) (fun i => Rabs (val la i * val lb i)) <= 2 ^ 1000 -> INR (S (length la)) * / 2 ^ 53 <= / 4 ->
  exists r : double, vdot m a b = Ret r /\ is_finite r = true /\
    Rabs (B2R r - rsum (length la) (fun i => val la i * val lb i)) <= gam (S (length la)) (/ 2 ^ 53) * rsum (length la) (fun i => Rabs (val la i * val lb i)) + INR (length la) * / 2 ^ 1073.
Proof.
  intros WA WB SZ EA EB FA FB SB NB. destruct (dot_fold m a b la lb WA WB SZ EA EB) as [E LL]. change (nT DNum) with double in *. eexists. split; [exact E|].
  rewrite <- asum_nth in SB. fold U in NB.
  assert (T : term_ok (fun i => nmul DNum (nth i la dzero) (nth i lb dzero)) (fun i => b64 (val la i * val lb i)) (fun i => val la i * val lb i) (seq 0 (length la))).
  { intros i Hi. pose proof Hi as Hs. apply in_seq in Hi. split.
    - apply d_mul; [apply val_holds; [exact FA|lia]|apply val_holds; [exact FB|lia]|]. pose proof (asum_in (fun i => Rabs (val la i * val lb i)) (seq 0 (length la)) i ltac:(intros; apply Rabs_pos) Hs) as H. cbv beta in H.
      pose proof (pow_lt 2 1000 ltac:(lra)). rewrite <- big4. lra.
    - pose proof (proj2 binary64_rounds (val la i * val lb i)) as H. exact H. }
  destruct (sum_holds _ _ _ (seq 0 (length la)) T SB ltac:(rewrite seq_length; exact NB)) as (r & HR & ER). rewrite seq_length in ER. destruct HR as [H1 H2]. split; [exact H1|].
  match goal with |- Rabs (B2R ?x - _) <= _ => replace (B2R x) with r by (symmetry; exact H2) end. rewrite <- !asum_nth. apply sum_final; [exact NB|apply asum_nonneg; intros; apply Rabs_pos|exact ER].
Qed.
Lemma abs_holds x r : holds x r -> holds (nabs DNum x) (Rabs r).
Proof. intros [F V]. split; [cbn; rewrite is_finite_Babs; exact F|cbn; rewrite B2R_Babs, V; reflexivity]. Qed.
Lemma norms_double (m : mem DNum) (e : vexpr DNum) (l : list double) : well_formed m e -> elements m e l -> all_finite l ->
  (exists r : double, vinfnorm m e = Ret r /\ is_finite r = true /\ (forall x, In x l -> Rabs (B2R x) <= B2R r) /\ ((l = [] /\ B2R r = 0) \/ exists x, In x l /\ B2R r = Rabs (B2R x))) /\
  (INR (S (length l)) * / 2 ^ 53 <= / 4 -> rsum (length l) (fun i => Rabs (val l i)) <= 2 ^ 1000 ->
     exists r : double, vonenorm m e = Ret r /\ is_finite r = true /\ Rabs (B2R r - rsum (length l) (fun i => Rabs (val l i))) <= gam (S (length l)) (/ 2 ^ 53) * rsum (length l) (fun i => Rabs (val l i)) + INR (length l) * / 2 ^ 1073) /\
  (INR (S (length l)) * / 2 ^ 53 <= / 4 -> rsum (length l) (fun i => val l i * val l i) <= 2 ^ 1000 ->
     exists r : double, veuclsq m e = Ret r /\ is_finite r = true /\ Rabs (B2R r - rsum (length l) (fun i => val l i * val l i)) <= gam (S (length l)) (/ 2 ^ 53) * rsum (length l) (fun i => val l i * val l i) + INR (length l) * / 2 ^ 1073).
Proof.
  intros W EL FL. apply elements_eq in EL; [|assumption]. subst l. unfold vinfnorm, vonenorm, veuclsq. rewrite vread_ok by assumption. set (l := elems m e) in *. cbn [obind]. change (nT DNum) with double in *. fold U.
  split; [|split].
  - eexists. split; [reflexivity|].
    assert (G : forall (l : list double) (s : double), all_finite l -> is_finite s = true -> 0 <= B2R s -> let r := fold_left (fun s x => nmax DNum s (nabs DNum x)) l s in
      is_finite r = true /\ B2R s <= B2R r /\ (forall x, In x l -> Rabs (B2R x) <= B2R r) /\ (B2R r = B2R s \/ exists x, In x l /\ B2R r = Rabs (B2R x))).
    { clear. induction l as [|x l I]; intros s F Fs S0; cbn [fold_left]; [cbn; repeat split; [exact Fs|lra|tauto|left; reflexivity]|].
      destruct (abs_holds x (B2R x) (finite_holds _ _ F (or_introl eq_refl))) as [A1 A2].
      assert (M : is_finite (nmax DNum s (nabs DNum x)) = true /\ B2R (nmax DNum s (nabs DNum x)) = Rmax (B2R s) (Rabs (B2R x))).
      { unfold nmax. change (nltb DNum s (nabs DNum x)) with (Bltb s (nabs DNum x)). rewrite (Bltb_correct 53 1024 s (nabs DNum x) Fs A1). rewrite A2. destruct (Rlt_bool_spec (B2R s) (Rabs (B2R x))).
        - split; [exact A1|]. rewrite A2, Rmax_right by lra. reflexivity.
        - split; [exact Fs|]. rewrite Rmax_left by lra. reflexivity. }
      destruct M as [M1 M2]. pose proof (Rmax_l (B2R s) (Rabs (B2R x))). pose proof (Rmax_r (B2R s) (Rabs (B2R x))).
      destruct (I (nmax DNum s (nabs DNum x)) ltac:(intros y Hy; apply F; right; exact Hy) M1 ltac:(rewrite M2; lra)) as (A & B & C & D). cbn zeta in *. rewrite M2 in B, D. split; [exact A|]. split; [lra|]. split.
      - intros y [->|Hy]; [lra|apply C; exact Hy].
      - destruct D as [D|[y [Hy D]]]; [|right; exists y; split; [right; exact Hy|exact D]]. rewrite D. unfold Rmax. destruct (Rle_dec (B2R s) (Rabs (B2R x))); [right; exists x; split; [left|]; reflexivity|left; reflexivity]. }
    destruct (G l dzero FL eq_refl ltac:(simpl; lra)) as (A & B & C & D). change (n0 DNum) with dzero. split; [exact A|]. split; [exact C|].
    change (B2R dzero) with 0 in D. destruct D as [D|D]; [|right; exact D]. destruct l as [|x l'] eqn:EL; [left; split; [reflexivity|exact D]|]. right. exists x. split; [left; reflexivity|].
    pose proof (C x (or_introl eq_refl)) as Cx. rewrite D in Cx. pose proof (Rabs_pos (B2R x)). transitivity 0; [exact D|]. lra.
  - intros NB SB. eexists. split; [reflexivity|].
    assert (T : term_ok (A:=double) (fun x : double => nabs DNum x) (fun x : double => Rabs (B2R x)) (fun x : double => Rabs (B2R x)) l).
    { intros x Hx. split; [apply abs_holds, (finite_holds l); assumption|]. rewrite Rminus_eq_0, Rabs_R0. pose proof u_small. pose proof eta_small. assert (0 <= U * Rabs (Rabs (B2R x))) by (apply Rmult_le_pos; [lra|apply Rabs_pos]). lra. }
    assert (Q : asum (A:=double) (fun a : double => Rabs (Rabs (B2R a))) l = rsum (length l) (fun i => Rabs (val l i))). { rewrite (asum_list (A:=double) _ dzero). apply rsum_ext. intros; apply Rabs_Rabsolu. }
    destruct (sum_holds (A:=double) _ _ _ l T (Rle_trans _ _ _ (Req_le _ _ Q) SB) NB) as (r & [H1 H2] & ER). split; [exact H1|]. match goal with |- Rabs (B2R ?x - _) <= _ => replace (B2R x) with r by (symmetry; exact H2) end. rewrite Q in ER.
    replace (rsum (length l) (fun i => Rabs (val l i))) with (asum (A:=double) (fun x : double => Rabs (B2R x)) l) at 1 by exact (asum_list (A:=double) (fun x : double => Rabs (B2R x)) dzero l).
    apply sum_final; [exact NB|apply rsum_nonneg; intros; apply Rabs_pos|exact ER].
  - intros NB SB. eexists. split; [reflexivity|].
    assert (Q : asum (A:=double) (fun a : double => Rabs (B2R a * B2R a)) l = rsum (length l) (fun i => val l i * val l i)). { rewrite (asum_list (A:=double) _ dzero). apply rsum_ext. intros; apply Rabs_pos_eq, Rle_0_sqr. }
    assert (T : term_ok (A:=double) (fun x : double => nmul DNum x x) (fun x : double => b64 (B2R x * B2R x)) (fun x : double => B2R x * B2R x) l).
    { intros x Hx. pose proof (finite_holds l x FL Hx) as HX. split; [apply d_mul; [exact HX|exact HX|]|exact (proj2 binary64_rounds (B2R x * B2R x))].
      pose proof (asum_in (A:=double) (fun a : double => Rabs (B2R a * B2R a)) l x ltac:(intros; apply Rabs_pos) Hx) as H. cbv beta in H. rewrite Q in H. pose proof (pow_lt 2 1000 ltac:(lra)). rewrite <- big4. lra. }
    destruct (sum_holds (A:=double) _ _ _ l T (Rle_trans _ _ _ (Req_le _ _ Q) SB) NB) as (r & [H1 H2] & ER). split; [exact H1|]. match goal with |- Rabs (B2R ?x - _) <= _ => replace (B2R x) with r by (symmetry; exact H2) end. rewrite Q in ER.
    replace (rsum (length l) (fun i => val l i * val l i)) with (asum (A:=double) (fun x : double => B2R x * B2R x) l) at 1 by exact (asum_list (A:=double) (fun x : double => B2R x * B2R x) dzero l).
    apply sum_final; [exact NB|apply rsum_nonneg; intros; apply Rle_0_sqr|exact ER].
Qed.
(** NaN. *)
Lemma nan_add_l (y : double) : nadd DNum (B754_nan : double) y = B754_nan. Proof. destruct y; reflexivity. Qed.
Lemma nan_add_r (x : double) : nadd DNum x (B754_nan : double) = B754_nan. Proof. destruct x; reflexivity. Qed.
Lemma nan_mul_l (y : double) : nmul DNum (B754_nan : double) y = B754_nan. Proof. destruct y; reflexivity. Qed.
Lemma nan_mul_r (x : double) : nmul DNum x (B754_nan : double) = B754_nan. Proof. destruct x; reflexivity. Qed.
Lemma nan_sum {A} (t : A -> double) l (s : double) a : In a l -> t a = B754_nan -> fold_left (fun s a => nadd DNum s (t a)) l s = B754_nan.
Proof.
  assert (G : forall l, fold_left (fun s a => nadd DNum s (t a)) l (B754_nan : double) = B754_nan). { induction l0 as [|b l0 I]; [reflexivity|]. cbn [fold_left]. rewrite nan_add_l. exact I. }
  revert s. induction l as [|b l I]; [intros s []|]. intros s [->|H] E; cbn [fold_left]; [rewrite E, nan_add_r; apply G|apply I; assumption].
Qed.
Lemma nan_double (m : mem DNum) : (forall a b la lb i, well_formed m a -> well_formed m b -> (vsize m a <= vsize m b)%nat -> elements m a la -> elements m b lb -> (i < length la)%nat ->
    nth i la dzero = B754_nan \/ nth i lb dzero = B754_nan -> vdot m a b = Ret (B754_nan : double)) /\
  (forall e l, well_formed m e -> elements m e l -> In (B754_nan : double) l -> vonenorm m e = Ret (B754_nan : double) /\ veuclsq m e = Ret (B754_nan : double)).
Proof.
  split.
  - intros a b la lb i WA WB SZ EA EB Hi H. rewrite (proj1 (dot_fold m a b la lb WA WB SZ EA EB)). change (nT DNum) with double in *. f_equal.
    apply (nan_sum (fun i => nmul DNum (nth i la dzero) (nth i lb dzero)) (seq 0 (length la)) dzero i); [apply in_seq; lia|]. destruct H as [H|H]; rewrite H; [apply nan_mul_l|apply nan_mul_r].
  - intros e l W EL H. apply elements_eq in EL; [|assumption]. subst l. unfold vonenorm, veuclsq. rewrite vread_ok by assumption. cbn [obind]. change (nT DNum) with double in *.
    split; f_equal; [apply (nan_sum (fun x => nabs DNum x) _ dzero B754_nan H); reflexivity|apply (nan_sum (fun x => nmul DNum x x) _ dzero B754_nan H); reflexivity].
Qed.
