(** LinFacts.v - linear systems are smooth along their solutions. *)
From Coq Require Import List Arith ZArith Lia QArith Qcanon Reals Lra.
From Verif Require Import Base BaseFacts VecModel VOps RkModel RkSpec StepModel StepSpec ConvSpec ConvFacts ConvFacts3 HighSpec FpSpec FpFacts3 IeeeSpec IeeeFacts4.
Import ListNotations.
Local Open Scope R_scope.

Lemma rsum_first n f : rsum (S n) f = f 0%nat + rsum n (fun i => f (S i)).
Proof. induction n as [|m I]; [cbn [rsum]; ring|]. cbn [rsum] in *. rewrite I. ring. Qed.
Lemma form_zero N us : forall c, (forall l, length l = length us -> c l = 0) -> form N c us = 0.
Proof.
  induction us as [|u r I]; intros c H; cbn [form]; [apply H; reflexivity|].
  rewrite (rsum_ext N _ (fun _ => 0)); [rewrite rsum_const; ring|]. intros i Hi. rewrite I; [ring|]. intros l Hl. apply H. simpl. rewrite Hl. reflexivity.
Qed.
(** A finite number of functions, each bounded on an interval, has a common bound. *)
Lemma common n (P : nat -> R -> Prop) : (forall j b c, P j b -> b <= c -> P j c) -> (forall j, (j < n)%nat -> exists b, P j b) -> exists b, 0 <= b /\ forall j, (j < n)%nat -> P j b.
Proof.
  intros M. induction n as [|m I]; intros H; [exists 0; split; [lra|intros; lia]|].
  destruct I as (b & b0 & Hb); [intros; apply H; lia|]. destruct (H m ltac:(lia)) as (c & Hc). pose proof (Rmax_l b c). pose proof (Rmax_r b c). exists (Rmax b c). split; [lra|].
  intros j Hj. destruct (Nat.eq_dec j m) as [->|E]; [apply M with c; assumption|]. apply M with b; [apply Hb; lia|assumption].
Qed.
Lemma solution_bounded n f X t0 t1 : t0 <= t1 -> solves n f X t0 t1 -> exists b, 0 <= b /\ forall j, (j < n)%nat -> forall t, t0 <= t <= t1 -> Rabs (cmpR (X t) j) <= b.
Proof.
  intros H S. apply (common n (fun j b => forall t, t0 <= t <= t1 -> Rabs (cmpR (X t) j) <= b)).
  - intros j b c Hb L t Ht. eapply Rle_trans; [apply Hb; exact Ht|exact L].
  - intros j Hj. assert (CT : forall t, t0 <= t <= t1 -> continuity_pt (fun t => cmpR (X t) j) t).
    { intros t Ht. apply derivable_continuous_pt. exists (cmpR (f t (X t)) j). apply (proj2 (S t Ht)). exact Hj. }
    destruct (continuity_ab_maj _ t0 t1 H CT) as (u & Hu & _). destruct (continuity_ab_min _ t0 t1 H CT) as (v & Hv & _).
    exists (Rabs (cmpR (X u) j) + Rabs (cmpR (X v) j)). intros t Ht. specialize (Hu t Ht). specialize (Hv t Ht). cbv beta in Hu, Hv.
    apply Rabs_le. pose proof (Rle_abs (cmpR (X u) j)). pose proof (Rle_abs (- cmpR (X v) j)) as Q. rewrite Rabs_Ropp in Q. pose proof (Rabs_pos (cmpR (X u) j)). pose proof (Rabs_pos (cmpR (X v) j)). lra.
Qed.
Definition lin_D (n : nat) (M : nat -> nat -> R) (X : R -> list R) (t : R) (j : nat) (idx : list nat) : R :=
  match idx with [] => cmpR (linearR n M t (X t)) j | [S i] => M j i | _ => 0 end.
Lemma linear_smooth n p M a X t0 t1 : (0 < p)%nat -> 0 <= a -> (forall i j, (i < n)%nat -> (j < n)%nat -> Rabs (M i j) <= a) -> t0 <= t1 -> solves n (linearR n M) X t0 t1 ->
  smooth_along n p (linearR n M) X t0 t1.
Proof.
  intros Hp A0 MA HT SO. destruct (solution_bounded n _ X t0 t1 HT SO) as (b & b0 & Hb). pose proof (pos_INR n) as N0.
  assert (NA : 0 <= INR n * a) by (apply Rmult_le_pos; lra). assert (NAB : 0 <= INR n * a * b) by (apply Rmult_le_pos; lra).
  set (MM := fun i j => if (i <? n)%nat then if (j <? n)%nat then M i j else 0 else 0).
  assert (EM : forall t x, linearR n M t x = linearR n MM t x).
  { intros t x. unfold linearR. apply map_ext_in. intros i Hi. apply in_seq in Hi. apply rsum_ext. intros j Hj. unfold MM. rewrite (proj2 (Nat.ltb_lt i n)) by lia. rewrite (proj2 (Nat.ltb_lt j n)) by lia. reflexivity. }
  assert (MB : forall i j, Rabs (MM i j) <= a). { intros i j. unfold MM. destruct (Nat.ltb_spec i n); [|rewrite Rabs_R0; exact A0]. destruct (Nat.ltb_spec j n); [apply MA; assumption|rewrite Rabs_R0; exact A0]. }
  exists (lin_D n MM X), 1, (a + INR n * a * b + INR n * a). split; [lra|]. split; [lra|]. intros t Ht.
  assert (FB : forall j, (j < n)%nat -> Rabs (cmpR (linearR n MM t (X t)) j) <= INR n * a * b).
  { intros j Hj. rewrite linear_nth by exact Hj. eapply Rle_trans; [apply rsum_abs|]. rewrite Rmult_assoc, <- (rsum_const (a * b) n). apply rsum_le. intros i Hi. rewrite Rabs_mult.
    apply Rmult_le_compat; try apply Rabs_pos; [apply MB|]. apply Hb; assumption. }
  split.
  - intros j idx Hj _. unfold lin_D. destruct idx as [|[|i] [|k r]]; rewrite ?Rabs_R0; try lra; [specialize (FB j Hj); lra|pose proof (MB j i); lra].
  - intros s y d Ly Hs N Hd j Hj. rewrite EM. assert (D0 : 0 <= d) by (eapply Rle_trans; [apply Rabs_pos|exact Hs]).
    assert (DF : Rabs (cmpR (linearR n MM s y) j - cmpR (linearR n MM t (X t)) j) <= INR n * a * d).
    { rewrite !linear_nth by exact Hj. rewrite rsum_minus. eapply Rle_trans; [apply rsum_abs|]. rewrite Rmult_assoc, <- (rsum_const (a * d) n). apply rsum_le. intros i Hi. rewrite <- Rmult_minus_distr_l, Rabs_mult.
      apply Rmult_le_compat; try apply Rabs_pos; [apply MB|apply N; exact Hi]. }
    assert (F1 : form (S n) (lin_D n MM X t j) [shift t (X t) s y] = cmpR (linearR n MM s y) j - cmpR (linearR n MM t (X t)) j).
    { cbn [form]. rewrite !linear_nth by exact Hj. rewrite rsum_minus. rewrite rsum_first. cbn [lin_D shift]. rewrite Rmult_0_r, Rplus_0_l. apply rsum_ext. intros i Hi. cbn [lin_D shift]. ring. }
    assert (FZ : forall m, (2 <= m)%nat -> form (S n) (lin_D n MM X t j) (repeat (shift t (X t) s y) m) = 0).
    { intros m Hm. apply form_zero. intros l Hl. rewrite repeat_length in Hl. destruct l as [|x [|z l]]; simpl in Hl; try lia. destruct x; reflexivity. }
    destruct p as [|[|q]]; [lia| |].
    + cbn [rsum repeat form lin_D]. simpl fact. simpl INR. replace (_ - (0 + _ / 1)) with (cmpR (linearR n MM s y) j - cmpR (linearR n MM t (X t)) j) by field. simpl pow. rewrite Rmult_1_r. eapply Rle_trans; [exact DF|]. apply Rmult_le_compat_r; lra.
    + assert (Z : rsum (S (S q)) (fun m => form (S n) (lin_D n MM X t j) (repeat (shift t (X t) s y) m) / INR (fact m)) = cmpR (linearR n MM s y) j).
      { clear Hp. induction q as [|q I].
        - cbn [rsum repeat]. rewrite F1. cbn [form lin_D]. simpl fact. simpl INR. field.
        - cbn [rsum]. cbn [rsum] in I. rewrite I. rewrite FZ by lia. unfold Rdiv. ring. }
      rewrite Z. rewrite Rminus_diag_eq, Rabs_R0 by reflexivity. apply Rmult_le_pos; [lra|apply pow_le; exact D0].
Qed.
Lemma linear_double_smooth n M a X t0 T p co stages delta : (0 < p)%nat -> wf_table co stages 1 -> shortcut_ok co stages -> order_upto co stages 0 p delta -> (delta <= 1)%Qc ->
  0 <= a -> (forall i j, (i < n)%nat -> (j < n)%nat -> Rabs (M i j) <= a) -> INR n <= 4096 -> INR stages <= 4096 -> 0 <= T -> solves n (linearR n M) X t0 (t0 + T) ->
  exists C, 0 <= C /\ forall (W : Type) MD (s0 : rkst DNum W) hD h count t0D x0D x0 d A B,
  matrix_holds n a MD M -> table_size A (tabR co) -> 0 <= A <= 2 ^ 1000 -> 0 < h -> holds hD h -> holds t0D t0 -> holdsV n x0D x0 ->
  INR count * h <= T -> INR count * (/ 2 ^ 53 + / 2 ^ 1075) <= 1 -> 0 <= d <= 1 -> near n x0 (X t0) d -> Rabs h * A * (INR stages * (INR n * a)) <= / 128 -> INR stages * (INR n * a) <= 2 ^ 40 ->
  let E := C * (d + h ^ p + q2r delta + (INR count + 1) * (/ 2 ^ 53 + / 2 ^ 1075)) in
  E <= 1 -> (forall t, t0 <= t <= t0 + T -> bound n (X t) (B - E)) -> 0 <= B ->
  state_size stages A (16 * (INR n * a * B) + 2) h B <= 2 ^ 1000 -> 16 * (INR n * a * B) + 2 <= 2 ^ 1000 -> time_size A h (Rabs t0 + T + E) <= 2 ^ 1000 ->
  exists s' posts t x, rk_steps (N:=DNum) no_events (rhs_ofD (linearD n MD)) (tabD (tabR co)) n hD count (rk_set (N:=DNum) no_events t0D x0D s0) = Ret (s', posts) /\
    holds (rk_t s') t /\ holdsV n (rk_x s') x /\ Rabs (t - (t0 + INR count * h)) <= C * (INR count * (/ 2 ^ 53 + / 2 ^ 1075)) /\ near n x (X (t0 + INR count * h)) E.
Proof.
  intros Hp WF SC OR DL A0 MA HN HS HT SO. apply (linear_double n M a X t0 T p co stages delta Hp WF SC OR DL A0 MA HN HS HT SO). apply (linear_smooth n p M a); try assumption. lra.
Qed.
