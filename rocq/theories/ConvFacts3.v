(** ConvFacts3.v - how one step of an explicit Runge-Kutta method spreads differences; accumulation of local errors. *)
From Coq Require Import List Arith Lia Bool ZArith QArith Qcanon Reals Lra.
From Verif Require Import Base BaseFacts VecModel VOps RkModel RkSpec StepModel StepSpec ConvSpec ConvFacts ConvFacts2.
Import ListNotations.
Local Open Scope R_scope.

Lemma rsum_le n f g : (forall i, (i < n)%nat -> f i <= g i) -> rsum n f <= rsum n g.
Proof. induction n as [|n I]; intros H; simpl; [lra|]. assert (f n <= g n) by (apply H; lia). assert (rsum n f <= rsum n g) by (apply I; intros; apply H; lia). lra. Qed.
Lemma rsum_abs n f : Rabs (rsum n f) <= rsum n (fun i => Rabs (f i)).
Proof. induction n as [|n I]; simpl; [rewrite Rabs_R0; lra|]. eapply Rle_trans; [apply Rabs_triang|]. lra. Qed.
Lemma rsum_minus n f g : rsum n f - rsum n g = rsum n (fun i => f i - g i).
Proof. induction n as [|n I]; simpl; [lra|]. rewrite <- I. lra. Qed.
Lemma rsum_mult n f c : rsum n f * c = rsum n (fun i => f i * c).
Proof. induction n as [|n I]; simpl; [lra|]. rewrite <- I. lra. Qed.
Lemma rsum_nonneg n f : (forall i, (i < n)%nat -> 0 <= f i) -> 0 <= rsum n f.
Proof. induction n as [|n I]; intros H; simpl; [lra|]. assert (0 <= f n) by (apply H; lia). assert (0 <= rsum n f) by (apply I; intros; apply H; lia). lra. Qed.
(** sum of |c_i| u_i bounds the sum of c_i v_i *)
Lemma rsum_dom n c v u : (forall i, (i < n)%nat -> Rabs (v i) <= u i) -> Rabs (rsum n (fun i => c i * v i)) <= rsum n (fun i => Rabs (c i) * u i).
Proof.
  intros H. eapply Rle_trans; [apply rsum_abs|]. apply rsum_le. intros i Hi. rewrite Rabs_mult. apply Rmult_le_compat_l; [apply Rabs_pos|auto].
Qed.

(** gains *)
Lemma gains_length co L h m : length (gains co L h m) = m.
Proof. induction m as [|m I]; [reflexivity|]. simpl. rewrite app_length, I. simpl. lia. Qed.
Lemma gains_low co L h s m d : (s < d)%nat -> (d <= m)%nat -> nth s (gains co L h m) 0 = nth s (gains co L h d) 0.
Proof.
  intros Hs. induction 1 as [|m Hm I]; [reflexivity|]. simpl. rewrite app_nth1 by (rewrite gains_length; lia). exact I.
Qed.
Lemma gains_at co L h s m : (s < m)%nat ->
  nth s (gains co L h m) 0 = L * (1 + h * rsum s (fun i => Rabs (AR_ co s i) * nth i (gains co L h m) 0)).
Proof.
  intros H. rewrite (gains_low co L h s m (S s)) by lia. simpl. rewrite app_nth2 by (rewrite gains_length; lia). rewrite gains_length, Nat.sub_diag. simpl.
  f_equal. f_equal. f_equal. apply rsum_ext. intros i Hi. rewrite (gains_low co L h i m s) by lia. reflexivity.
Qed.
Lemma gains_nonneg co L h m : 0 <= L -> 0 <= h -> forall s, 0 <= nth s (gains co L h m) 0.
Proof.
  intros HL Hh s. destruct (le_lt_dec m s) as [H|H]; [rewrite nth_overflow by (rewrite gains_length; lia); lra|].
  revert H. induction s as [s I] using lt_wf_ind. intros H. rewrite gains_at by assumption.
  apply Rmult_le_pos; [assumption|]. assert (0 <= rsum s (fun i => Rabs (AR_ co s i) * nth i (gains co L h m) 0)).
  { apply rsum_nonneg. intros i Hi. apply Rmult_le_pos; [apply Rabs_pos|apply I; lia]. }
  assert (0 <= h * rsum s (fun i => Rabs (AR_ co s i) * nth i (gains co L h m) 0)) by (apply Rmult_le_pos; assumption). lra.
Qed.
Lemma gains_mono co L h H m : 0 <= L -> 0 <= h <= H -> forall s, (s < m)%nat -> nth s (gains co L h m) 0 <= nth s (gains co L H m) 0.
Proof.
  intros HL Hh s. induction s as [s I] using lt_wf_ind. intros Hs. rewrite !gains_at by assumption.
  apply Rmult_le_compat_l; [assumption|]. apply Rplus_le_compat_l. apply Rmult_le_compat; [lra| |lra|].
  - apply rsum_nonneg. intros i Hi. apply Rmult_le_pos; [apply Rabs_pos|apply gains_nonneg; lra].
  - apply rsum_le. intros i Hi. apply Rmult_le_compat_l; [apply Rabs_pos|apply I; lia].
Qed.
Lemma growth_nonneg co stages ix L h : 0 <= L -> 0 <= h -> 0 <= growth co stages ix L h.
Proof. intros HL Hh. apply rsum_nonneg. intros i Hi. apply Rmult_le_pos; [apply Rabs_pos|apply gains_nonneg; assumption]. Qed.
Lemma growth_mono co stages ix L h H : 0 <= L -> 0 <= h <= H -> growth co stages ix L h <= growth co stages ix L H.
Proof. intros HL Hh. apply rsum_le. intros i Hi. apply Rmult_le_compat_l; [apply Rabs_pos|apply gains_mono; assumption]. Qed.

Section Spread.
Context (co : coeffs RNum) (stages n ix : nat) (f : R -> list R -> list R) (L : R).
Hypothesis SZ : sized n f.
Hypothesis HL : 0 <= L.
Hypothesis LIP : lipschitz_x n L f.
Notation F := (fun t x => Ret (f t x)).
Lemma stages_spread x y t h evals k evals' k' d : 0 <= h -> 0 <= d -> near n x y d ->
  stagesR co stages n F x t h evals k -> stagesR co stages n F y t h evals' k' ->
  forall s, (s < stages)%nat -> near n (nth s k []) (nth s k' []) (nth s (gains co L h stages) 0 * d).
Proof.
  intros Hh Hd NR [_ [_ H1]] [_ [_ H2]] s. induction s as [s I] using lt_wf_ind. intros Hs.
  destruct (H1 s Hs) as [a [_ [E1 [L1 A1]]]]. destruct (H2 s Hs) as [b [_ [E2 [L2 A2]]]]. injection E1 as <-. injection E2 as <-.
  rewrite gains_at by assumption. rewrite Rmult_assoc. apply LIP; [assumption|assumption|].
  intros j Hj. rewrite A1, A2 by assumption.
  replace (cmpR x j + h * rsum s (fun i => AR_ co s i * cmpR (nth i k []) j) - (cmpR y j + h * rsum s (fun i => AR_ co s i * cmpR (nth i k' []) j)))
    with ((cmpR x j - cmpR y j) + h * (rsum s (fun i => AR_ co s i * cmpR (nth i k []) j) - rsum s (fun i => AR_ co s i * cmpR (nth i k' []) j))) by ring.
  rewrite rsum_minus. rewrite (rsum_ext s _ (fun i => AR_ co s i * (cmpR (nth i k []) j - cmpR (nth i k' []) j))) by (intros; ring).
  rewrite Rmult_plus_distr_r, Rmult_1_l. eapply Rle_trans; [apply Rabs_triang|]. apply Rplus_le_compat; [apply NR; assumption|].
  rewrite Rabs_mult, (Rabs_right h) by lra. rewrite Rmult_assoc. apply Rmult_le_compat_l; [assumption|]. rewrite rsum_mult.
  rewrite (rsum_ext s (fun i => Rabs (AR_ co s i) * nth i (gains co L h stages) 0 * d) (fun i => Rabs (AR_ co s i) * (nth i (gains co L h stages) 0 * d))) by (intros; ring).
  apply rsum_dom. intros i Hi. apply I; [assumption|lia|assumption].
Qed.
Lemma step_spread x y t h x' y' d : 0 <= h -> 0 <= d -> near n x y d ->
  tstep co stages n ix F h (t, x) (t + h, x') -> tstep co stages n ix F h (t, y) (t + h, y') ->
  near n x' y' ((1 + h * growth co stages ix L h) * d).
Proof.
  intros Hh Hd NR [_ [ev1 [k1 [S1 [_ R1]]]]] [_ [ev2 [k2 [S2 [_ R2]]]]]. simpl in *. intros j Hj. rewrite R1, R2 by assumption.
  replace (cmpR x j + h * rsum stages (fun s => BR_ co stages ix s * cmpR (nth s k1 []) j) - (cmpR y j + h * rsum stages (fun s => BR_ co stages ix s * cmpR (nth s k2 []) j)))
    with ((cmpR x j - cmpR y j) + h * (rsum stages (fun s => BR_ co stages ix s * cmpR (nth s k1 []) j) - rsum stages (fun s => BR_ co stages ix s * cmpR (nth s k2 []) j))) by ring.
  rewrite rsum_minus. rewrite (rsum_ext stages _ (fun s => BR_ co stages ix s * (cmpR (nth s k1 []) j - cmpR (nth s k2 []) j))) by (intros; ring).
  rewrite Rmult_plus_distr_r, Rmult_1_l. eapply Rle_trans; [apply Rabs_triang|]. apply Rplus_le_compat; [apply NR; assumption|].
  rewrite Rabs_mult, (Rabs_right h) by lra. rewrite Rmult_assoc. apply Rmult_le_compat_l; [assumption|]. unfold growth. rewrite rsum_mult.
  rewrite (rsum_ext stages (fun i => Rabs (BR_ co stages ix i) * nth i (gains co L h stages) 0 * d) (fun i => Rabs (BR_ co stages ix i) * (nth i (gains co L h stages) 0 * d))) by (intros; ring).
  apply rsum_dom. intros i Hi. exact (stages_spread x y t h ev1 k1 ev2 k2 d Hh Hd NR S1 S2 i Hi j Hj).
Qed.

(** paths with equal steps *)
Lemma near_trans x y z a b : near n x y a -> near n y z b -> near n x z (a + b).
Proof.
  intros H1 H2 j Hj. replace (cmpR x j - cmpR z j) with ((cmpR x j - cmpR y j) + (cmpR y j - cmpR z j)) by ring.
  eapply Rle_trans; [apply Rabs_triang|]. specialize (H1 j Hj). specialize (H2 j Hj). lra.
Qed.
Lemma near_weaken x y a b : near n x y a -> a <= b -> near n x y b.
Proof. intros H1 H2 j Hj. specialize (H1 j Hj). lra. Qed.
Lemma near_nonneg x y a : near n x y a -> near n x y (Rmax a 0) /\ ((0 < n)%nat -> 0 <= a).
Proof.
  intros H. split; [apply (near_weaken x y a); [assumption|apply Rmax_l]|]. intros N0. specialize (H 0%nat N0). pose proof (Rabs_pos (cmpR x 0 - cmpR y 0)). lra.
Qed.
Lemma accumulate h eps : 0 <= h -> forall count s s' (z : nat -> list R) d, 0 <= d -> 0 <= eps ->
  path co stages n ix F s (repeat h count) s' -> near n (snd s) (z 0%nat) d ->
  (forall i, (i < count)%nat -> exists y, tstep co stages n ix F h (fst s + INR i * h, z i) (fst s + INR i * h + h, y) /\ near n y (z (S i)) eps) ->
  near n (snd s') (z count) ((1 + h * growth co stages ix L h) ^ count * d + eps * rsum count (fun k => (1 + h * growth co stages ix L h) ^ k)).
Proof.
  intros Hh. induction count as [|c I]; intros s s' z d Hd He P NR Hz.
  - simpl in P. inversion P; subst. simpl. apply (near_weaken _ _ d); [assumption|lra].
  - simpl in P. inversion P as [|s0 h0 s1 l0 s2 TS P1]; subst. destruct (Hz 0%nat) as [y [TY NY]]; [lia|]. simpl INR in TY. rewrite Rmult_0_l, Rplus_0_r in TY.
    assert (G : 0 <= growth co stages ix L h) by (apply growth_nonneg; assumption).
    assert (HG : 0 <= h * growth co stages ix L h) by (apply Rmult_le_pos; assumption).
    destruct s as [t x], s1 as [t1 x1]. pose proof (proj1 TS) as TT. simpl in TT, NR, TY. subst t1.
    pose proof (step_spread x (z 0%nat) t h x1 y d Hh Hd NR TS TY) as N1. pose proof (near_trans _ _ _ _ _ N1 NY) as N2.
    assert (D2 : 0 <= (1 + h * growth co stages ix L h) * d + eps) by (assert (0 <= (1 + h * growth co stages ix L h) * d) by (apply Rmult_le_pos; lra); lra).
    specialize (I (t + h, x1) s' (fun i => z (S i)) ((1 + h * growth co stages ix L h) * d + eps) D2 He P1 N2).
    assert (HZ : forall i, (i < c)%nat -> exists y, tstep co stages n ix F h (fst (t + h, x1) + INR i * h, z (S i)) (fst (t + h, x1) + INR i * h + h, y) /\ near n y (z (S (S i))) eps).
    { intros i Hi. destruct (Hz (S i)) as [y' [TY' NY']]; [lia|]. exists y'. split; [|assumption]. cbn [fst] in TY' |- *. rewrite S_INR in TY'.
      replace (t + h + INR i * h) with (t + (INR i + 1) * h) by ring. exact TY'. }
    specialize (I HZ). cbn beta in I. eapply near_weaken; [exact I|]. simpl. right. ring.
Qed.
End Spread.
