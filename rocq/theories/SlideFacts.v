From Coq Require Import List Reals String Lra Lia Psatz.
From Verif Require Import Base SlideModel SlideSpec.
Import ListNotations.
Local Open Scope R_scope.

Section Slide.
Context (p : slide).
Hypothesis F0 : 0 <= sl_f0 p.
Hypothesis V0 : 0 < sl_v0 p.
Lemma two_pi : 0 < 2 / PI. Proof. apply Rdiv_lt_0_compat; [lra|apply PI_RGT_0]. Qed.
Lemma law_zero : friction_law p 0 = 0.
Proof.
  unfold friction_law. destruct (sl_type p).
  - unfold Rdiv at 2. rewrite Rmult_0_l, atan_0. ring.
  - destruct (Rlt_dec 0 (sl_v0 p)); [field; lra|contradiction].
  - field. lra.
Qed.
Lemma div_mono a b : a <= b -> a / sl_v0 p <= b / sl_v0 p.
Proof. intros H. unfold Rdiv. apply Rmult_le_compat_r; [left; apply Rinv_0_lt_compat; exact V0|exact H]. Qed.
Lemma law_mono a b : 0 <= a -> a <= b -> friction_law p a <= friction_law p b.
Proof.
  intros A H. unfold friction_law. destruct (sl_type p).
  - apply Rmult_le_compat_l; [apply Rmult_le_pos; [left; apply two_pi|exact F0]|]. destruct (div_mono a b H) as [L|E]; [left; apply atan_increasing; exact L|rewrite E; right; reflexivity].
  - pose proof (div_mono a b H) as D. assert (Q : sl_v0 p / sl_v0 p = 1) by (field; lra). destruct (Rlt_dec a (sl_v0 p)) as [La|Ga], (Rlt_dec b (sl_v0 p)) as [Lb|Gb].
    + unfold Rdiv in *. rewrite !Rmult_assoc. apply Rmult_le_compat_l; assumption.
    + pose proof (div_mono a (sl_v0 p) ltac:(lra)) as D1. rewrite Q in D1. unfold Rdiv in *. rewrite Rmult_assoc. rewrite <- (Rmult_1_r (sl_f0 p)) at 2. apply Rmult_le_compat_l; assumption.
    + lra.
    + right. reflexivity.
  - pose proof (div_mono a b H) as D. unfold Rdiv in *. rewrite !Rmult_assoc. apply Rmult_le_compat_l; assumption.
Qed.
Lemma law_nonneg a : 0 <= a -> 0 <= friction_law p a.
Proof. intros A. rewrite <- law_zero. apply law_mono; lra. Qed.
Lemma law_bound a : sl_type p <> Linear -> 0 <= a -> friction_law p a <= sl_f0 p.
Proof.
  intros T A. unfold friction_law. destruct (sl_type p); [| |contradiction].
  - pose proof (atan_bound (a / sl_v0 p)) as [_ B]. pose proof PI_RGT_0 as PP.
    apply Rle_trans with (2 / PI * sl_f0 p * (PI / 2)); [apply Rmult_le_compat_l; [apply Rmult_le_pos; [left; apply two_pi|exact F0]|lra]|right; field; lra].
  - destruct (Rlt_dec a (sl_v0 p)) as [L|G]; [|lra]. pose proof (div_mono a (sl_v0 p) ltac:(lra)) as D. assert (Q : sl_v0 p / sl_v0 p = 1) by (field; lra). rewrite Q in D.
    unfold Rdiv in *. rewrite Rmult_assoc. rewrite <- (Rmult_1_r (sl_f0 p)) at 2. apply Rmult_le_compat_l; assumption.
Qed.
Lemma atan_le x : 0 <= x -> atan x <= x.
Proof.
  intros [H|<-]; [|rewrite atan_0; lra].
  destruct (MVT_cor2 atan (fun u => / (1 + u ^ 2)) 0 x H) as [c [E [C1 C2]]]; [intros; apply derivable_pt_lim_atan|].
  rewrite atan_0, !Rminus_0_r in E. rewrite E. rewrite <- (Rmult_1_l x) at 2. apply Rmult_le_compat_r; [lra|].
  rewrite <- Rinv_1. apply Rinv_le_contravar; [lra|]. pose proof (pow2_ge_0 c). lra.
Qed.
Lemma law_slope a : 0 <= a -> friction_law p a <= sl_f0 p / sl_v0 p * a.
Proof.
  intros A. assert (Q : sl_f0 p * a / sl_v0 p = sl_f0 p / sl_v0 p * a) by (field; lra). assert (FV : 0 <= sl_f0 p / sl_v0 p) by (apply Rmult_le_pos; [exact F0|left; apply Rinv_0_lt_compat; exact V0]).
  unfold friction_law. destruct (sl_type p).
  - assert (AV : 0 <= a / sl_v0 p) by (apply Rmult_le_pos; [exact A|left; apply Rinv_0_lt_compat; exact V0]). pose proof (atan_le _ AV) as B. pose proof PI_RGT_0 as PP. pose proof PI2_3_2 as P3.
    assert (P2 : 2 / PI <= 1). { apply (Rmult_le_reg_r PI); [exact PP|]. unfold Rdiv. rewrite Rmult_assoc, Rinv_l by lra. lra. }
    assert (AT : 0 <= atan (a / sl_v0 p)) by (destruct AV as [L|<-]; [left; rewrite <- atan_0; apply atan_increasing; exact L|rewrite atan_0; lra]).
    apply Rle_trans with (1 * (sl_f0 p * (a / sl_v0 p))); [|right; field; lra]. rewrite Rmult_assoc. apply Rmult_le_compat; [left; apply two_pi|apply Rmult_le_pos; assumption|exact P2|]. apply Rmult_le_compat_l; assumption.
  - destruct (Rlt_dec a (sl_v0 p)) as [L|G]; [rewrite Q; right; reflexivity|]. rewrite <- (Rmult_1_r (sl_f0 p)) at 1. unfold Rdiv. rewrite Rmult_assoc. apply Rmult_le_compat_l; [exact F0|].
    assert (1 = / sl_v0 p * sl_v0 p) by (field; lra). rewrite H at 1. apply Rmult_le_compat_l; [left; apply Rinv_0_lt_compat; exact V0|lra].
  - rewrite Q. right. reflexivity.
Qed.

(** ** The force *)
Lemma norm_nonneg a : 0 <= norm2 a. Proof. apply sqrt_pos. Qed.
Lemma norm_sq a : norm2 a * norm2 a = fst a * fst a + snd a * snd a.
Proof. apply sqrt_sqrt. nra. Qed.
Lemma norm_scale k a : 0 <= k -> norm2 (- k * fst a, - k * snd a) = k * norm2 a.
Proof.
  intros K. unfold norm2 at 1. cbn [fst snd]. replace (- k * fst a * (- k * fst a) + - k * snd a * (- k * snd a)) with (k * k * (fst a * fst a + snd a * snd a)) by ring.
  rewrite sqrt_mult by nra. rewrite sqrt_square by exact K. reflexivity.
Qed.
Lemma norm_zero a : norm2 a = 0 -> a = (0, 0).
Proof. intros E. pose proof (norm_sq a) as S. rewrite E in S. destruct a as [u v]. cbn in *. assert (u = 0) by nra. assert (v = 0) by nra. subst. reflexivity. Qed.
(** the force is -k v *)
Lemma force_along v : exists k, 0 <= k /\ friction_at p v = (- k * fst v, - k * snd v) /\ k * norm2 v = friction_law p (norm2 v).
Proof.
  unfold friction_at, friction. fold (norm2 v). destruct (Rlt_dec 0 (norm2 v)) as [P|N].
  - exists (friction_law p (norm2 v) / norm2 v). split; [apply Rmult_le_pos; [apply law_nonneg; lra|left; apply Rinv_0_lt_compat; exact P]|]. cbn [fst snd]. split; [f_equal; field; lra|field; lra].
  - assert (Z : norm2 v = 0) by (pose proof (norm_nonneg v); lra). exists 0. split; [lra|]. rewrite Z, law_zero. split; [|ring]. cbn [fst snd]. f_equal; ring.
Qed.
Lemma force_norm v : norm2 (friction_at p v) = friction_law p (norm2 v).
Proof. destruct (force_along v) as [k [K [E L]]]. rewrite E, norm_scale by exact K. exact L. Qed.
Lemma cauchy a c : dot2 a c <= norm2 a * norm2 c.
Proof.
  unfold dot2. pose proof (norm_nonneg a) as A. pose proof (norm_nonneg c) as C. pose proof (norm_sq a) as SA. pose proof (norm_sq c) as SC.
  assert (N : 0 <= norm2 a * norm2 c) by (apply Rmult_le_pos; assumption).
  assert (S : (fst a * fst c + snd a * snd c) * (fst a * fst c + snd a * snd c) <= norm2 a * norm2 c * (norm2 a * norm2 c)).
  { replace (norm2 a * norm2 c * (norm2 a * norm2 c)) with (norm2 a * norm2 a * (norm2 c * norm2 c)) by ring. rewrite SA, SC. pose proof (Rle_0_sqr (fst a * snd c - snd a * fst c)) as Q. unfold Rsqr in Q. lra. }
  destruct (Rle_dec (fst a * fst c + snd a * snd c) 0); nra.
Qed.
Lemma force_monotone v w : dot2 (minus2 (friction_at p v) (friction_at p w)) (minus2 v w) <= 0.
Proof.
  destruct (force_along v) as [k [K [E L]]]. destruct (force_along w) as [l [K' [E' L']]]. rewrite E, E'. unfold dot2, minus2. cbn [fst snd].
  pose proof (cauchy v w) as C. unfold dot2 in C. pose proof (norm_sq v) as SV. pose proof (norm_sq w) as SW. pose proof (norm_nonneg v) as NV. pose proof (norm_nonneg w) as NW.
  assert (M : (k * norm2 v - l * norm2 w) * (norm2 v - norm2 w) >= 0).
  { rewrite L, L'. destruct (Rle_dec (norm2 v) (norm2 w)) as [H|H].
    - pose proof (law_mono _ _ NV H). nra.
    - pose proof (law_mono (norm2 w) (norm2 v) NW ltac:(lra)). nra. }
  set (a := norm2 v) in *. set (c := norm2 w) in *. set (d := fst v * fst w + snd v * snd w) in *.
  replace ((- k * fst v - - l * fst w) * (fst v - fst w) + (- k * snd v - - l * snd w) * (snd v - snd w)) with (- k * (fst v * fst v + snd v * snd v) + (k + l) * d - l * (fst w * fst w + snd w * snd w)) by (unfold d; ring).
  rewrite <- SV, <- SW. assert (0 <= (k + l) * (a * c - d)) by (apply Rmult_le_pos; lra). nra.
Qed.
End Slide.

Lemma slide_ok p t x : List.length x = 4%nat -> slide_rhs p t x = Ret [nth 2 x 0; nth 3 x 0;
   (sl_F1 p + fst (friction_at p (nth 2 x 0, nth 3 x 0))) / sl_mass p; (sl_F2 p * sin (sl_omega p * t) + snd (friction_at p (nth 2 x 0, nth 3 x 0))) / sl_mass p].
Proof. intros L. destruct x as [|? [|? [|? [|? [|? ?]]]]]; try discriminate. reflexivity. Qed.
Lemma slide_contract p t x y : 0 <= sl_f0 p -> 0 < sl_v0 p -> 0 < sl_mass p -> List.length x = 4%nat -> List.length y = 4%nat ->
  exists dx dy, slide_rhs p t x = Ret dx /\ slide_rhs p t y = Ret dy /\
    dot2 (minus2 (nth 2 dx 0, nth 3 dx 0) (nth 2 dy 0, nth 3 dy 0)) (minus2 (nth 2 x 0, nth 3 x 0) (nth 2 y 0, nth 3 y 0)) <= 0.
Proof.
  intros F V M Lx Ly. rewrite (slide_ok p t x Lx), (slide_ok p t y Ly). eexists. eexists. split; [reflexivity|]. split; [reflexivity|]. cbn [nth].
  pose proof (force_monotone p F V (nth 2 x 0, nth 3 x 0) (nth 2 y 0, nth 3 y 0)) as H. unfold dot2, minus2 in *. cbn [fst snd] in *.
  set (r := friction_at p (nth 2 x 0, nth 3 x 0)) in *. set (r' := friction_at p (nth 2 y 0, nth 3 y 0)) in *. assert (I : 0 < / sl_mass p) by (apply Rinv_0_lt_compat; exact M). unfold Rdiv.
  match goal with |- ?A <= 0 => replace A with (/ sl_mass p * ((fst r - fst r') * (nth 2 x 0 - nth 2 y 0) + (snd r - snd r') * (nth 3 x 0 - nth 3 y 0))) by ring end. nra.
Qed.
Lemma enum_round t : exists s, from_enum t = Ret s /\ to_enum s = Ret t.
Proof. destruct t; eexists; split; reflexivity. Qed.
Lemma enum_back s : match to_enum s with Ret t => from_enum t = Ret s | Throw => s <> "atan"%string /\ s <> "tabular"%string /\ s <> "linear"%string | UB => False end.
Proof.
  unfold to_enum, enum_text. cbn [find snd]. destruct (String.eqb_spec s "atan"); [subst; reflexivity|]. destruct (String.eqb_spec s "tabular"); [subst; reflexivity|]. destruct (String.eqb_spec s "linear"); [subst; reflexivity|]. auto.
Qed.
Lemma opposes p v : 0 <= sl_f0 p -> 0 < sl_v0 p -> exists k, 0 <= k /\ friction_at p v = (- k * fst v, - k * snd v).
Proof. intros F V. destruct (force_along p F V v) as [k [K [E _]]]. exists k. auto. Qed.
Lemma bounded p v : 0 <= sl_f0 p -> 0 < sl_v0 p -> (sl_type p <> Linear -> norm2 (friction_at p v) <= sl_f0 p) /\ norm2 (friction_at p v) <= sl_f0 p / sl_v0 p * norm2 v.
Proof.
  intros F V. rewrite (force_norm p F V). split; [intros T; apply (law_bound p F V _ T), norm_nonneg|apply (law_slope p F V), norm_nonneg].
Qed.
Lemma saturates p v : 0 <= sl_f0 p -> 0 < sl_v0 p -> sl_type p = Tabular -> sl_v0 p <= norm2 v -> norm2 (friction_at p v) = sl_f0 p.
Proof. intros F V T H. rewrite (force_norm p F V). unfold friction_law. rewrite T. destruct (Rlt_dec _ _); [lra|reflexivity]. Qed.
Lemma grows p v w : 0 <= sl_f0 p -> 0 < sl_v0 p -> norm2 v <= norm2 w -> norm2 (friction_at p v) <= norm2 (friction_at p w).
Proof. intros F V H. rewrite !(force_norm p F V). apply (law_mono p F V); [apply norm_nonneg|exact H]. Qed.
