(** HighFacts7.v - order p with a single exact table; the tables of the library; the function cos^2. *)
From Coq Require Import List Arith Lia Bool ZArith QArith Qcanon Reals Lra Qreals.
From Verif Require Import Base BaseFacts VecModel VOps RkModel RkSpec RkFacts4 RkFacts5 RkFacts6 RkFacts7 StepModel StepSpec ConvSpec ConvFacts ConvFacts2 ConvFacts3 ConvFacts4 ConvFacts5 HighSpec HighFacts HighFacts2 HighFacts3 HighFacts4 HighFacts5 HighFacts6.
Import ListNotations.
Local Open Scope R_scope.

Lemma order_exactly f n L X t0 T p co stages : (0 < p)%nat -> wf_table co stages 1 -> shortcut_ok co stages -> order_conditions co stages 0 p -> row_sums co stages ->
  sized n f -> 0 <= L -> lipschitz n L f -> 0 <= T -> solves n f X t0 (t0 + T) -> smooth_along n p f X t0 (t0 + T) ->
  exists C, 0 <= C /\ forall (W : Type) (s0 : rkst RNum W) h count x0 d, 0 < h -> INR count * h <= T -> length x0 = n -> 0 <= d -> near n x0 (X t0) d ->
  exists s' posts, rk_steps (N:=RNum) no_events (rhs_of f) (tabR co) n h count (rk_set (N:=RNum) no_events t0 x0 s0) = Ret (s', posts) /\
    rk_t s' = t0 + INR count * h /\ near n (rk_x s') (X (rk_t s')) (C * (d + h ^ p)).
Proof.
  intros Hp WF SC OC RS SZ HL LIP HT SO SM. destruct (entries_exist co) as [A [A0 EN]].
  destruct (order_fixed f n L X t0 T p stages A Hp SZ HL LIP HT SO SM A0) as [C [C0 HC]]. exists C. split; [assumption|]. intros W s0 h count x0 d Hh TL Lx Hd NR.
  destruct (HC co 0%Qc WF SC EN (order_exact co stages 0 p OC RS) ltac:(discriminate) W s0 h count x0 d Hh TL Lx Hd NR) as [s' [posts [E [ET N]]]].
  exists s', posts. split; [assumption|]. split; [assumption|]. rewrite q2r_0, Rplus_0_r in N. exact N.
Qed.
Definition entries_ok (co : coeffs QcNum) (A : Qc) : bool := forallb (fun e => negb (Qcltb A (Qcabs e))) (co_a co ++ co_b co ++ co_c co).
Lemma entries_sound co A : entries_ok co A = true -> entries_upto co A.
Proof.
  intros H. apply Forall_forall. intros e He. unfold entries_ok in H. rewrite forallb_forall in H. specialize (H e He). apply negb_true_iff in H.
  apply Qcnot_lt_le. intros K. apply Qcltb_lt in K. congruence.
Qed.
Lemma order_tables :
  order_upto tab_euler 1 0 1 0%Qc /\ order_upto tab_rk4 4 0 4 0%Qc /\
  order_upto tab_dopri45 7 0 5 0%Qc /\ order_upto tab_dopri45 7 1 4 0%Qc /\
  order_upto tab_dopri56 8 0 6 0%Qc /\ order_upto tab_dopri56 8 1 5 0%Qc /\
  order_upto tab_dopri78 13 0 8 (qc 1 10000000000000000) /\ order_upto tab_dopri78 13 1 7 (qc 1 10000000000000000) /\
  entries_upto tab_euler (qc 1000 1) /\ entries_upto tab_rk4 (qc 1000 1) /\ entries_upto tab_dopri45 (qc 1000 1) /\ entries_upto tab_dopri56 (qc 1000 1) /\ entries_upto tab_dopri78 (qc 1000 1).
Proof.
  split; [exact (order_exact _ _ _ _ ord_euler rows_euler)|]. split; [exact (order_exact _ _ _ _ ord_rk4 rows_rk4)|].
  split; [exact (order_exact _ _ _ _ ord_dopri45_hi rows_dopri45)|]. split; [exact (order_exact _ _ _ _ ord_dopri45_lo rows_dopri45)|].
  split; [exact (order_exact _ _ _ _ ord_dopri56_hi rows_dopri56)|]. split; [exact (order_exact _ _ _ _ ord_dopri56_lo rows_dopri56)|].
  assert (W : (qc 1 100000000000000000 <= qc 1 10000000000000000)%Qc) by (intros K; discriminate K).
  split; [split; [intros t Ht; eapply Qcle_trans; [exact (ord_dopri78_hi t Ht)|exact W]|exact rows_dopri78]|].
  split; [split; [intros t Ht; eapply Qcle_trans; [exact (ord_dopri78_lo t Ht)|exact W]|exact rows_dopri78]|].
  repeat (split; [apply entries_sound; vm_compute; reflexivity|]). apply entries_sound; vm_compute; reflexivity.
Qed.

(** * An example of a right-hand side: x' = cos(x)^2, solution arctan *)
Definition cos2 (m : nat) (x : R) : R :=
  match m with O => (1 + cos (2 * x)) / 2 | 1%nat => - sin (2 * x) | 2%nat => - 2 * cos (2 * x) | 3%nat => 4 * sin (2 * x) | 4%nat => 8 * cos (2 * x) | _ => 0 end.
Definition cos2_rhs (t : R) (x : list R) : list R := [cos2 0 (cmpR x 0)].
Definition cos2_E (t : R) (x : list R) (j : nat) (idx : list nat) : R := if forallb (Nat.eqb 1) idx then cos2 (length idx) (cmpR x 0) else 0.
Lemma form_line (G : nat -> R) v : forall m k, form 2 (fun l => if forallb (Nat.eqb 1) l then G (k + length l)%nat else 0) (repeat v m) = G (k + m)%nat * v 1%nat ^ m.
Proof.
  induction m as [|m I]; intros k; [simpl; rewrite Nat.add_0_r; ring|]. cbn [repeat form rsum].
  transitivity (0 + v 0%nat * 0 + v 1%nat * (G (S k + m)%nat * v 1%nat ^ m)); [|replace (k + S m)%nat with (S k + m)%nat by lia; simpl; ring].
  apply f_equal2; [apply f_equal2; [reflexivity|apply f_equal2; [reflexivity|]]|apply f_equal2; [reflexivity|]].
  - rewrite (form_ext 2 m (repeat v m) _ (fun _ => 0)); [apply form_zero|apply repeat_length|intros idx _; reflexivity].
  - rewrite <- I. apply (form_ext 2 m); [apply repeat_length|]. intros idx _. simpl. rewrite Nat.add_succ_r. reflexivity.
Qed.
Lemma cos2_form t x j v m : form 2 (cos2_E t x j) (repeat v m) = cos2 m (cmpR x 0) * v 1%nat ^ m.
Proof. exact (form_line (fun k => cos2 k (cmpR x 0)) v m 0). Qed.
Lemma lim_scal2 a b g y l : derivable_pt_lim g (2 * y) l -> derivable_pt_lim (fun u => a + b * g (2 * u)) y (b * (l * 2)).
Proof.
  intros H. replace (b * (l * 2)) with (0 + b * (l * 2)) by ring. apply (derivable_pt_lim_plus (fun _ => a) (fun u => b * g (2 * u))); [apply derivable_pt_lim_const|].
  apply (derivable_pt_lim_scal (fun u => g (2 * u))). apply (derivable_pt_lim_comp (fun u => 2 * u) g y 2 l); [|exact H].
  pose proof (derivable_pt_lim_scal id 2 y 1 (derivable_pt_lim_id y)) as K. rewrite Rmult_1_r in K. exact K.
Qed.
Lemma lim_eq f g y l l' : (forall u, f u = g u) -> l = l' -> derivable_pt_lim f y l -> derivable_pt_lim g y l'.
Proof. intros E EL H. subst l'. intros eps He. destruct (H eps He) as [d HD]. exists d. intros k K0 K1. rewrite <- !E. apply HD; assumption. Qed.
Lemma cos2_lim m y : (m < 4)%nat -> derivable_pt_lim (cos2 m) y (cos2 (S m) y).
Proof.
  intros Hm. destruct m as [|[|[|[|m]]]]; try lia.
  - apply (lim_eq (fun u => 1 / 2 + 1 / 2 * cos (2 * u)) (cos2 0) y (1 / 2 * (- sin (2 * y) * 2))); [intros; simpl; field|simpl; field|]. apply lim_scal2. apply derivable_pt_lim_cos.
  - apply (lim_eq (fun u => 0 + -1 * sin (2 * u)) (cos2 1) y (-1 * (cos (2 * y) * 2))); [intros; simpl; ring|simpl; ring|]. apply lim_scal2. apply derivable_pt_lim_sin.
  - apply (lim_eq (fun u => 0 + -2 * cos (2 * u)) (cos2 2) y (-2 * (- sin (2 * y) * 2))); [intros; simpl; ring|simpl; ring|]. apply lim_scal2. apply derivable_pt_lim_cos.
  - apply (lim_eq (fun u => 0 + 4 * sin (2 * u)) (cos2 3) y (4 * (cos (2 * y) * 2))); [intros; simpl; ring|simpl; ring|]. apply lim_scal2. apply derivable_pt_lim_sin.
Qed.
Lemma cos2_bound m y : Rabs (cos2 m y) <= 8.
Proof.
  pose proof (COS_bound (2 * y)) as C. pose proof (SIN_bound (2 * y)) as S.
  destruct m as [|[|[|[|[|m]]]]]; simpl; apply Rabs_le; lra.
Qed.
Lemma cos2_derivatives : derivatives 1 4 cos2_rhs cos2_E.
Proof.
  split.
  - intros t x j Lx Hj. assert (j = 0)%nat by lia. subst j. reflexivity.
  - intros t x j v m th Lx Hj Hm.
    apply (lim_eq (fun th => v 1%nat ^ m * cos2 m (cmpR x 0 + th * v 1%nat)) _ th (v 1%nat ^ m * (cos2 (S m) (cmpR x 0 + th * v 1%nat) * v 1%nat))).
    + intros u. rewrite cos2_form. rewrite along_at by lia. ring.
    + rewrite (cos2_form _ _ j v (S m)). rewrite along_at by lia. simpl pow. ring.
    + apply (derivable_pt_lim_scal (fun th => cos2 m (cmpR x 0 + th * v 1%nat))).
      apply (derivable_pt_lim_comp (fun th => cmpR x 0 + th * v 1%nat) (cos2 m) th (v 1%nat) _); [|apply cos2_lim; assumption].
      apply (lim_eq (fun th => cmpR x 0 + th * v 1%nat) _ th (0 + (1 * v 1%nat + th * 0))); [reflexivity|ring|].
      apply (derivable_pt_lim_plus (fun _ => cmpR x 0) (fun th => th * v 1%nat)); [apply derivable_pt_lim_const|].
      apply (derivable_pt_lim_mult id (fun _ => v 1%nat)); [apply derivable_pt_lim_id|apply derivable_pt_lim_const].
Qed.
Lemma cos2_sized : sized 1 cos2_rhs. Proof. intros t x _. reflexivity. Qed.
Lemma cos2_lip : lipschitz 1 1 cos2_rhs.
Proof.
  intros t s x y d Lx Ly NR j Hj. assert (j = 0)%nat by lia. subst j. specialize (NR 0%nat ltac:(lia)). unfold cos2_rhs. change (Rabs (cos2 0 (cmpR x 0) - cos2 0 (cmpR y 0)) <= 1 * (Rabs (t - s) + d)).
  pose proof (Rabs_pos (t - s)) as TP. apply Rle_trans with (Rabs (cmpR x 0 - cmpR y 0)); [|lra].
  assert (G : forall a b, a < b -> Rabs (cos2 0 b - cos2 0 a) <= Rabs (b - a)).
  { intros a b LT. destruct (MVT_cor2 (cos2 0) (cos2 1) a b LT) as [c [E _]]; [intros u _; apply cos2_lim; lia|]. rewrite E, Rabs_mult. rewrite <- (Rmult_1_l (Rabs (b - a))) at 2.
    apply Rmult_le_compat_r; [apply Rabs_pos|]. pose proof (SIN_bound (2 * c)). apply Rabs_le. simpl. lra. }
  destruct (Rtotal_order (cmpR x 0) (cmpR y 0)) as [LT|[EQ|GT]]; [|rewrite EQ, !Rminus_eq_0; lra|apply G; assumption].
  rewrite (Rabs_minus_sym (cos2 0 (cmpR x 0))), (Rabs_minus_sym (cmpR x 0)). apply G. assumption.
Qed.
Lemma cos2_solution t0 t1 : solves 1 cos2_rhs (fun t => [atan t]) t0 t1.
Proof.
  intros t _. split; [reflexivity|]. intros j Hj. assert (j = 0)%nat by lia. subst j.
  apply (lim_eq atan _ t (/ (1 + t ^ 2))); [reflexivity| |apply derivable_pt_lim_atan].
  change (/ (1 + t ^ 2) = (1 + cos (2 * atan t)) / 2). rewrite cos_2a_cos, cos_atan.
  assert (P : 0 < 1 + t ^ 2) by (pose proof (pow2_ge_0 t); lra). assert (S2 : sqrt (1 + t ^ 2) * sqrt (1 + t ^ 2) = 1 + t ^ 2) by (apply sqrt_sqrt; lra).
  replace (t²) with (t ^ 2) by (unfold Rsqr; ring). assert (SP : 0 < sqrt (1 + t ^ 2)) by (apply sqrt_lt_R0; assumption).
  replace (/ (1 + t ^ 2)) with (/ (sqrt (1 + t ^ 2) * sqrt (1 + t ^ 2))) by (rewrite S2; reflexivity). field. lra.
Qed.
Lemma cos2_smooth t0 t1 : smooth_along 1 4 cos2_rhs (fun t => [atan t]) t0 t1.
Proof.
  apply (smooth_from 1 4 cos2_rhs cos2_E _ t0 t1 1 8 cos2_derivatives); [lra|lra|reflexivity|]. intros s t x j idx _ _ _ _ _ _. unfold cos2_E.
  destruct (forallb (Nat.eqb 1) idx); [apply cos2_bound|rewrite Rabs_R0; lra].
Qed.
