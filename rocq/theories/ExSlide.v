(** ExSlide.v - concrete cases for PropSlide.v. *)
From Coq Require Import List Reals String Lra.
From Verif Require Import Base SlideModel SlideSpec SlideFacts PropSlide.
Import ListNotations.
Local Open Scope R_scope.
(** the default parameters (SlidingPoint.h 26-34), the three kinds of friction *)
Definition dflt (t : friction_type) : slide := mkSlide t 1 1 1 10 10 100.
Example C68_conditions : forall t, 0 <= sl_f0 (dflt t) /\ 0 < sl_v0 (dflt t) /\ 0 < sl_mass (dflt t).
Proof. intros t. cbn. lra. Qed.
Lemma norm_34 : norm2 (3, 4) = 5.
Proof. unfold norm2. cbn. replace (3 * 3 + 4 * 4) with (5 * 5) by ring. apply sqrt_square. lra. Qed.
Example C68_tabular_case : friction_at (dflt Tabular) (3, 4) = (- (3 / 5), - (4 / 5)).
Proof.
  unfold friction_at, friction. cbn [fst snd]. change (sqrt (3 * 3 + 4 * 4)) with (norm2 (3, 4)). rewrite norm_34. destruct (Rlt_dec 0 5); [|lra].
  unfold friction_law. cbn. destruct (Rlt_dec 5 1); [lra|]. cbn [fst snd]. f_equal; field.
Qed.
Example C68_linear_case : friction_at (dflt Linear) (3, 4) = (-3, -4).
Proof.
  unfold friction_at, friction. cbn [fst snd]. change (sqrt (3 * 3 + 4 * 4)) with (norm2 (3, 4)). rewrite norm_34. destruct (Rlt_dec 0 5); [|lra].
  unfold friction_law. cbn. f_equal; field.
Qed.
Example C68_atan_case : norm2 (friction_at (dflt Atan) (1, 0)) = 1 / 2.
Proof.
  rewrite force_norm by (cbn; lra). unfold friction_law. cbn. unfold norm2. cbn [fst snd]. replace (1 * 1 + 0 * 0) with (1 * 1) by ring. rewrite sqrt_square by lra. replace (1 / 1) with 1 by field. rewrite atan_1.
  pose proof PI_RGT_0. field. lra.
Qed.
(** Linear friction is not bounded by f0. *)
Theorem C68_linear_bound_refuted : ~ (forall p v, 0 <= sl_f0 p -> 0 < sl_v0 p -> norm2 (friction_at p v) <= sl_f0 p).
Proof.
  intros H. specialize (H (dflt Linear) (3, 4) ltac:(cbn; lra) ltac:(cbn; lra)). rewrite force_norm in H by (cbn; lra). rewrite norm_34 in H. unfold friction_law in H. cbn in H. lra.
Qed.
(** A negative saturation speed, which setParameters accepts, makes friction drive the point. *)
Theorem C68_negative_speed_refuted : ~ (forall p v, 0 <= sl_f0 p -> exists k, 0 <= k /\ friction_at p v = (- k * fst v, - k * snd v)).
Proof.
  intros H. destruct (H (mkSlide Linear 1 1 (-1) 0 0 0) (3, 4) ltac:(cbn; lra)) as [k [K E]]. unfold friction_at, friction in E. cbn [fst snd] in E. change (sqrt (3 * 3 + 4 * 4)) with (norm2 (3, 4)) in E. rewrite norm_34 in E.
  destruct (Rlt_dec 0 5); [|lra]. unfold friction_law in E. cbn in E. injection E as E _. assert (X : - (1 * 5 / -1) * (3 / 5) = 3) by field. rewrite X in E. lra.
Qed.
Example C68_text_case : to_enum "tabular" = Ret Tabular /\ to_enum "Atan" = Throw.
Proof. split; reflexivity. Qed.
