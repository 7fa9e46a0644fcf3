(** HighFacts.v - orders of magnitude; multilinear forms of sums; a list of trees by depth. *)
From Coq Require Import List Arith Lia Bool Reals Lra.
From Verif Require Import Base VecModel VOps RkModel RkSpec RkFacts4 StepSpec ConvSpec ConvFacts ConvFacts3 HighSpec.
Import ListNotations.
Local Open Scope R_scope.

(** sums over lists *)
Fixpoint lsum {A} (l : list A) (g : A -> R) : R := match l with [] => 0 | a :: r => g a + lsum r g end.
Lemma lsum_ext {A} (l : list A) f g : (forall a, In a l -> f a = g a) -> lsum l f = lsum l g.
Proof. induction l as [|a l I]; intros H; [reflexivity|]. simpl. rewrite H by (left; reflexivity). rewrite I by (intros; apply H; right; assumption). reflexivity. Qed.
Lemma lsum_app {A} (l r : list A) g : lsum (l ++ r) g = lsum l g + lsum r g.
Proof. induction l as [|a l I]; simpl; [ring|]. rewrite I. ring. Qed.
Lemma lsum_map {A B} (h : A -> B) l g : lsum (map h l) g = lsum l (fun a => g (h a)).
Proof. induction l as [|a l I]; simpl; [reflexivity|]. rewrite I. reflexivity. Qed.
Lemma lsum_flat_map {A B} (h : A -> list B) l g : lsum (flat_map h l) g = lsum l (fun a => lsum (h a) g).
Proof. induction l as [|a l I]; simpl; [reflexivity|]. rewrite lsum_app, I. reflexivity. Qed.
Lemma lsum_mult {A} (l : list A) g c : c * lsum l g = lsum l (fun a => c * g a).
Proof. induction l as [|a l I]; simpl; [ring|]. rewrite <- I. ring. Qed.
Lemma lsum_plus {A} (l : list A) f g : lsum l f + lsum l g = lsum l (fun a => f a + g a).
Proof. induction l as [|a l I]; simpl; [ring|]. rewrite <- I. ring. Qed.
Lemma lsum_seq p g : lsum (seq 0 p) g = rsum p g.
Proof. induction p as [|p I]; [reflexivity|]. rewrite seq_S, lsum_app, I. simpl. ring. Qed.
Lemma rsum_lsum {A} n (l : list A) g : rsum n (fun i => lsum l (g i)) = lsum l (fun a => rsum n (fun i => g i a)).
Proof. induction n as [|n I]; simpl; [induction l as [|a l J]; simpl; [reflexivity|rewrite <- J; ring]|]. rewrite I, lsum_plus. reflexivity. Qed.
Lemma rsum_const_mult n f c : c * rsum n f = rsum n (fun i => c * f i).
Proof. induction n as [|n I]; simpl; [ring|]. rewrite <- I. ring. Qed.
Lemma rsum_plus n f g : rsum n f + rsum n g = rsum n (fun i => f i + g i).
Proof. induction n as [|n I]; simpl; [ring|]. rewrite <- I. ring. Qed.

(** * Orders of magnitude: |e| <= C (h^q + dl), uniformly over the valid cases i *)
Section Big.
Context {P : Type} (valid : P -> Prop) (h dl : P -> R) (H : R).
Hypothesis HH : forall i, valid i -> 0 < h i <= H.
Hypothesis HD : forall i, valid i -> 0 <= dl i <= 1.
Definition big (q : nat) (e : P -> R) : Prop := exists C, 0 <= C /\ forall i, valid i -> Rabs (e i) <= C * (h i ^ q + dl i).
Lemma hpow i q : valid i -> 0 < h i ^ q.
Proof. intros V. apply pow_lt. apply HH. assumption. Qed.
Lemma hpow_le i q : valid i -> h i ^ q <= Rabs H ^ q.
Proof. intros V. apply pow_incr. specialize (HH i V). split; [lra|]. eapply Rle_trans; [|apply Rle_abs]. lra. Qed.
Lemma big_ext q e e' : (forall i, valid i -> e i = e' i) -> big q e -> big q e'.
Proof. intros E [C [C0 HC]]. exists C. split; [assumption|]. intros i V. rewrite <- E by assumption. auto. Qed.
Lemma big_weaken q q' e : (q' <= q)%nat -> big q e -> big q' e.
Proof.
  intros Q [C [C0 HC]]. exists (C * (Rabs H ^ (q - q') + 1)). assert (P0 : 0 <= Rabs H ^ (q - q')) by (apply pow_le, Rabs_pos). split; [apply Rmult_le_pos; lra|].
  intros i V. eapply Rle_trans; [apply HC; assumption|]. replace q with ((q - q') + q')%nat at 1 by lia. rewrite pow_add.
  rewrite Rmult_assoc. apply Rmult_le_compat_l; [assumption|]. pose proof (hpow_le i (q - q') V) as A. pose proof (hpow i q' V) as B. specialize (HD i V).
  assert (h i ^ (q - q') * h i ^ q' <= Rabs H ^ (q - q') * h i ^ q') by (apply Rmult_le_compat_r; lra).
  assert (0 <= Rabs H ^ (q - q') * dl i) by (apply Rmult_le_pos; lra). lra.
Qed.
Lemma big_plus q e f : big q e -> big q f -> big q (fun i => e i + f i).
Proof.
  intros [C [C0 HC]] [D [D0 HDD]]. exists (C + D). split; [lra|]. intros i V. eapply Rle_trans; [apply Rabs_triang|]. specialize (HC i V). specialize (HDD i V). lra.
Qed.
Lemma big_opp q e : big q e -> big q (fun i => - e i).
Proof. intros [C [C0 HC]]. exists C. split; [assumption|]. intros i V. rewrite Rabs_Ropp. auto. Qed.
Lemma big_minus q e f : big q e -> big q f -> big q (fun i => e i - f i).
Proof. intros A B. apply (big_ext q (fun i => e i + - f i)); [intros; ring|]. apply big_plus; [assumption|apply big_opp; assumption]. Qed.
Lemma big_mult a b e f : big a e -> big b f -> big (a + b) (fun i => e i * f i).
Proof.
  intros [C [C0 HC]] [D [D0 HDD]]. set (K := Rabs H ^ a + Rabs H ^ b + 1).
  assert (P1 : 0 <= Rabs H ^ a) by (apply pow_le, Rabs_pos). assert (P2 : 0 <= Rabs H ^ b) by (apply pow_le, Rabs_pos).
  exists (C * D * K). assert (CD : 0 <= C * D) by (apply Rmult_le_pos; assumption). split; [apply Rmult_le_pos; [assumption|unfold K; lra]|].
  intros i V. rewrite Rabs_mult, pow_add. apply Rle_trans with ((C * (h i ^ a + dl i)) * (D * (h i ^ b + dl i))); [apply Rmult_le_compat; auto using Rabs_pos|].
  replace ((C * (h i ^ a + dl i)) * (D * (h i ^ b + dl i))) with (C * D * ((h i ^ a + dl i) * (h i ^ b + dl i))) by ring. rewrite (Rmult_assoc (C * D) K). apply Rmult_le_compat_l; [assumption|].
  pose proof (hpow_le i a V) as A1. pose proof (hpow_le i b V) as A2. pose proof (hpow i a V) as A3. pose proof (hpow i b V) as A4. specialize (HD i V).
  assert (Q1 : dl i * h i ^ a <= dl i * Rabs H ^ a) by (apply Rmult_le_compat_l; lra). assert (Q2 : dl i * h i ^ b <= dl i * Rabs H ^ b) by (apply Rmult_le_compat_l; lra).
  assert (Q3 : dl i * dl i <= dl i * 1) by (apply Rmult_le_compat_l; lra). assert (Q4 : 0 < h i ^ a * h i ^ b) by (apply Rmult_lt_0_compat; lra).
  assert (Q5 : 0 <= (Rabs H ^ a + Rabs H ^ b) * (h i ^ a * h i ^ b)) by (apply Rmult_le_pos; lra). unfold K. lra.
Qed.
Lemma big_le q e C : 0 <= C -> (forall i, valid i -> Rabs (e i) <= C * h i ^ q) -> big q e.
Proof. intros C0 B. exists C. split; [assumption|]. intros i V. eapply Rle_trans; [apply B; assumption|]. apply Rmult_le_compat_l; [assumption|]. specialize (HD i V). lra. Qed.
Lemma big_d q e C : 0 <= C -> (forall i, valid i -> Rabs (e i) <= C * dl i) -> big q e.
Proof. intros C0 B. exists C. split; [assumption|]. intros i V. eapply Rle_trans; [apply B; assumption|]. apply Rmult_le_compat_l; [assumption|]. pose proof (hpow i q V). lra. Qed.
Lemma big_bound e C : (forall i, valid i -> Rabs (e i) <= C) -> big 0 e.
Proof. intros B. apply (big_le 0 e (Rabs C)); [apply Rabs_pos|]. intros i V. simpl. specialize (B i V). pose proof (Rle_abs C). lra. Qed.
Lemma big_const c : big 0 (fun _ => c).
Proof. apply (big_bound _ (Rabs c)). intros; lra. Qed.
Lemma big_zero q : big q (fun _ => 0).
Proof. apply (big_le q _ 0); [lra|]. intros i V. rewrite Rabs_R0. lra. Qed.
Lemma big_h q : big q (fun i => h i ^ q).
Proof. apply (big_le q _ 1); [lra|]. intros i V. rewrite Rabs_right by (left; apply hpow; assumption). lra. Qed.
Lemma big_scale q e c : big q e -> big q (fun i => c * e i).
Proof. intros B. exact (big_mult 0 q _ _ (big_const c) B). Qed.
Lemma big_rsum q n e : (forall j, (j < n)%nat -> big q (fun i => e i j)) -> big q (fun i => rsum n (e i)).
Proof. induction n as [|n I]; intros B; simpl; [apply big_zero|]. apply big_plus; [apply I; intros; apply B; lia|apply B; lia]. Qed.
Lemma big_lsum {A} q (l : list A) e : (forall a, In a l -> big q (fun i => e i a)) -> big q (fun i => lsum l (e i)).
Proof. induction l as [|a l I]; intros B; simpl; [apply big_zero|]. apply big_plus; [apply B; left; reflexivity|apply I; intros; apply B; right; assumption]. Qed.
(** multilinear forms with bounded coefficients *)
Lemma form_big N m (c : P -> list nat -> R) (us : list (P -> nat -> R)) : length us = m ->
  (forall idx, length idx = m -> big 0 (fun i => c i idx)) -> (forall u j, In u us -> (j < N)%nat -> big 0 (fun i => u i j)) ->
  big 0 (fun i => form N (c i) (map (fun u => u i) us)).
Proof.
  revert m c. induction us as [|u us I]; intros m c L Hc Hu; simpl in L; subst m; simpl.
  - apply Hc. reflexivity.
  - apply big_rsum. intros j Hj. apply (big_mult 0 0 (fun i => u i j)); [apply Hu; [left; reflexivity|assumption]|].
    apply (I (length us)); [reflexivity| |intros; apply Hu; [right; assumption|assumption]]. intros idx Li. apply Hc. simpl. rewrite Li. reflexivity.
Qed.
Lemma form_diff N q m (c : P -> list nat -> R) (u v : P -> nat -> R) :
  (forall idx, length idx = m -> big 0 (fun i => c i idx)) -> (forall j, (j < N)%nat -> big 0 (fun i => u i j)) -> (forall j, (j < N)%nat -> big 0 (fun i => v i j)) ->
  (forall j, (j < N)%nat -> big q (fun i => u i j - v i j)) ->
  big q (fun i => form N (c i) (repeat (u i) m) - form N (c i) (repeat (v i) m)).
Proof.
  revert c. induction m as [|m I]; intros c Hc Hu Hv Hd.
  - simpl. apply (big_ext q (fun _ => 0)); [intros; ring|apply big_zero].
  - simpl. apply (big_ext q (fun i => rsum N (fun j => (u i j - v i j) * form N (fun l => c i (j :: l)) (repeat (u i) m) +
        v i j * (form N (fun l => c i (j :: l)) (repeat (u i) m) - form N (fun l => c i (j :: l)) (repeat (v i) m))))).
    { intros i V. rewrite rsum_minus. apply rsum_ext. intros j Hj. ring. }
    apply big_rsum. intros j Hj. assert (Hc' : forall idx, length idx = m -> big 0 (fun i => c i (j :: idx))) by (intros idx Li; apply Hc; simpl; rewrite Li; reflexivity).
    apply big_plus.
    + replace q with (q + 0)%nat by lia. apply (big_mult q 0 (fun i => u i j - v i j)); [apply Hd; assumption|].
      assert (FB := form_big N m (fun i l => c i (j :: l)) (repeat u m) (repeat_length _ _) Hc').
      apply (big_ext 0 (fun i => form N (fun l => c i (j :: l)) (map (fun u0 => u0 i) (repeat u m)))).
      { intros i V. f_equal. clear. induction m; simpl; [reflexivity|]. f_equal. assumption. }
      apply FB. intros w k Hw Hk. apply repeat_spec in Hw. subst w. apply Hu. assumption.
    + apply (big_mult 0 q (fun i => v i j)); [apply Hv; assumption|]. apply (I (fun i l => c i (j :: l))); assumption.
Qed.
End Big.

(** * Forms of sums: expansion into tuples *)
Fixpoint tuples {A} (m : nat) (l : list A) : list (list A) := match m with O => [[]] | S k => flat_map (fun a => map (cons a) (tuples k l)) l end.
Definition lprod {A} (l : list A) (g : A -> R) : R := fold_right (fun a r => g a * r) 1 l.
Lemma form_expand {A} N m (L : list A) (a : A -> R) (F : A -> nat -> R) : forall c,
  form N c (repeat (fun j => lsum L (fun x => a x * F x j)) m) = lsum (tuples m L) (fun l => lprod l a * form N c (map F l)).
Proof.
  induction m as [|m I]; intros c; simpl; [unfold lprod; simpl; ring|]. rewrite lsum_flat_map.
  rewrite (rsum_ext N _ (fun i => lsum L (fun x => a x * F x i * form N (fun l => c (i :: l)) (repeat (fun j => lsum L (fun x => a x * F x j)) m)))).
  2:{ intros i Hi. rewrite Rmult_comm, lsum_mult. apply lsum_ext. intros x _. ring. }
  rewrite rsum_lsum. apply lsum_ext. intros x _. rewrite lsum_map.
  rewrite (rsum_ext N _ (fun i => lsum (tuples m L) (fun l => a x * F x i * (lprod l a * form N (fun r => c (i :: r)) (map F l))))).
  2:{ intros i Hi. rewrite I. apply lsum_mult. }
  rewrite rsum_lsum. apply lsum_ext. intros l _. simpl. unfold lprod. simpl. fold (lprod l a). rewrite rsum_const_mult. apply rsum_ext. intros i Hi. ring.
Qed.
Lemma tuples_in {A} m (L : list A) l : In l (tuples m L) -> length l = m /\ forall a, In a l -> In a L.
Proof.
  revert l. induction m as [|m I]; intros l; simpl.
  - intros [<-|[]]. split; [reflexivity|]. intros a [].
  - intros HI. apply in_flat_map in HI. destruct HI as [x [Hx HI]]. apply in_map_iff in HI. destruct HI as [r [<- Hr]]. destruct (I r Hr) as [L1 L2].
    split; [simpl; rewrite L1; reflexivity|]. intros a [<-|Ha]; auto.
Qed.
Lemma lprod_mult {A} (l : list A) f g : lprod l (fun a => f a * g a) = lprod l f * lprod l g.
Proof. induction l as [|a l I]; unfold lprod in *; simpl; [ring|]. rewrite I. ring. Qed.
Lemma lprod_ext {A} (l : list A) f g : (forall a, In a l -> f a = g a) -> lprod l f = lprod l g.
Proof. induction l as [|a l I]; intros E; [reflexivity|]. unfold lprod in *. simpl. rewrite I by (intros; apply E; right; assumption). rewrite E by (left; reflexivity). reflexivity. Qed.

(** * Trees of bounded depth, with fewer than p children everywhere *)
Fixpoint trees (p d : nat) : list tree := match d with O => [] | S e => flat_map (fun m => map Node (tuples m (trees p e))) (seq 0 p) end.
Lemma lsum_trees p d g : lsum (trees p (S d)) g = rsum p (fun m => lsum (tuples m (trees p d)) (fun l => g (Node l))).
Proof.
  change (trees p (S d)) with (flat_map (fun m => map Node (tuples m (trees p d))) (seq 0 p)). rewrite lsum_flat_map, lsum_seq. apply rsum_ext. intros m _. apply lsum_map.
Qed.
(** the elementary differentials, the numbers of orderings, and the weights *)
Fixpoint diffl (N : nat) (c : nat -> list nat -> R) (t : tree) (j : nat) : R := match t with Node l => form N (c j) (map (diffl N c) l) end.
Fixpoint cf (t : tree) : R := match t with Node l => fold_right (fun c r => cf c * r) 1 l / INR (fact (length l)) end.
Lemma cf_Node l : cf (Node l) = lprod l cf / INR (fact (length l)).
Proof. reflexivity. Qed.
Lemma lprod_pow h l : lprod l (fun t => h ^ order t) = h ^ forder l.
Proof. induction l as [|t l I]; [reflexivity|]. unfold lprod in *. simpl. rewrite I, pow_add. reflexivity. Qed.
Lemma diffl_Node N c l j : diffl N c (Node l) j = form N (c j) (map (diffl N c) l).
Proof. reflexivity. Qed.
