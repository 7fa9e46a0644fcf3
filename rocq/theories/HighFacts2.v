(** HighFacts2.v - inserting an expansion in trees into a Taylor expansion. *)
From Coq Require Import List Arith Lia Bool Reals Lra.
From Verif Require Import Base VecModel VOps RkModel RkSpec RkFacts4 StepSpec ConvSpec ConvFacts ConvFacts3 HighSpec HighFacts.
Import ListNotations.
Local Open Scope R_scope.

Definition kids (a : tree -> R) (t : tree) : R := match t with Node l => lprod l a end.

Section Compose.
Context {P : Type} (valid : P -> Prop) (h dl : P -> R) (H : R).
Hypothesis HH : forall i, valid i -> 0 < h i <= H.
Hypothesis HD : forall i, valid i -> 0 <= dl i <= 1.
Context (N p : nat) (c : P -> nat -> list nat -> R).
Notation big := (big valid h dl).
Hypothesis Hc : forall j idx, (j < N)%nat -> (length idx < p)%nat -> big 0 (fun i => c i j idx).

Lemma trees_in d l m : In (Node l) (trees p (S d)) -> length l = m -> (m < p)%nat /\ forall t, In t l -> In t (trees p d).
Proof.
  intros HI L. change (trees p (S d)) with (flat_map (fun m => map Node (tuples m (trees p d))) (seq 0 p)) in HI. apply in_flat_map in HI. destruct HI as [m' [M1 M2]].
  apply in_map_iff in M2. destruct M2 as [l' [E M2]]. injection E as ->. apply in_seq in M1. destruct (tuples_in _ _ _ M2) as [L1 L2]. split; [lia|assumption].
Qed.
Lemma diffl_big d : forall t, In t (trees p d) -> forall j, (j < N)%nat -> big 0 (fun i => diffl N (c i) t j).
Proof.
  induction d as [|d I]; intros t HI j Hj; [destruct HI|]. destruct t as [l]. destruct (trees_in d l (length l) HI eq_refl) as [LM LT].
  apply (big_ext valid h dl 0 (fun i => form N (c i j) (map (fun u => u i) (map (fun t i j => diffl N (c i) t j) l)))).
  { intros i V. rewrite diffl_Node. f_equal. rewrite map_map. apply map_ext. intros t. reflexivity. }
  apply (form_big valid h dl H HH HD N (length l)); [apply map_length|intros idx Li; apply Hc; [assumption|lia]|].
  intros u k Hu Hk. apply in_map_iff in Hu. destruct Hu as [t [<- Ht]]. apply I; auto.
Qed.
Definition series (a : P -> tree -> R) (d : nat) (i : P) (j : nat) : R :=
  lsum (trees p d) (fun t => (h i ^ order t * a i t * cf t) * diffl N (c i) t j).
Lemma series_big a d j : (j < N)%nat -> (forall t, In t (trees p d) -> big 0 (fun i => a i t)) -> big 0 (fun i => series a d i j).
Proof.
  intros Hj Ha. apply (big_lsum valid h dl HD). intros t Ht. apply (big_mult valid h dl H HH HD 0 0); [|apply (diffl_big d); assumption].
  apply (big_mult valid h dl H HH HD 0 0); [|apply (big_const valid h dl HD)]. apply (big_mult valid h dl H HH HD 0 0); [|apply Ha; assumption].
  apply (big_weaken valid h dl H HH HD (order t)); [lia|]. apply (big_h valid h dl H HH HD).
Qed.
Lemma taylor_series a d i j :
  rsum p (fun m => form N (c i j) (repeat (series a d i) m) / INR (fact m)) =
  lsum (trees p (S d)) (fun t => h i ^ (order t - 1) * kids (a i) t * cf t * diffl N (c i) t j).
Proof.
  rewrite lsum_trees. apply rsum_ext. intros m Hm. unfold series. rewrite form_expand. unfold Rdiv. rewrite Rmult_comm, lsum_mult. apply lsum_ext. intros l Hl.
  destruct (tuples_in _ _ _ Hl) as [L1 _]. rewrite (lprod_mult l (fun t => h i ^ order t * a i t) cf), (lprod_mult l (fun t => h i ^ order t) (a i)), lprod_pow.
  rewrite order_Node, cf_Node, diffl_Node, L1. replace (S (forder l) - 1)%nat with (forder l) by lia. simpl kids. unfold Rdiv. ring.
Qed.
Lemma compose d a (u g : P -> nat -> R) : (d < p)%nat -> (forall t, In t (trees p d) -> big 0 (fun i => a i t)) ->
  (forall j, (j < N)%nat -> big (S d) (fun i => u i j - series a d i j)) ->
  (forall j, (j < N)%nat -> big p (fun i => g i j - rsum p (fun m => form N (c i j) (repeat (u i) m) / INR (fact m)))) ->
  forall j, (j < N)%nat -> big (S d) (fun i => g i j - lsum (trees p (S d)) (fun t => h i ^ (order t - 1) * kids (a i) t * cf t * diffl N (c i) t j)).
Proof.
  intros Hd Ha Hu Hg j Hj.
  apply (big_ext valid h dl (S d) (fun i => (g i j - rsum p (fun m => form N (c i j) (repeat (u i) m) / INR (fact m))) +
    rsum p (fun m => / INR (fact m) * (form N (c i j) (repeat (u i) m) - form N (c i j) (repeat (series a d i) m))))).
  { intros i V. rewrite <- (taylor_series a d i j).
    rewrite (rsum_ext p (fun m => / INR (fact m) * (form N (c i j) (repeat (u i) m) - form N (c i j) (repeat (series a d i) m)))
      (fun m => form N (c i j) (repeat (u i) m) / INR (fact m) - form N (c i j) (repeat (series a d i) m) / INR (fact m))) by (intros; unfold Rdiv; ring).
    rewrite <- (rsum_minus p (fun m => form N (c i j) (repeat (u i) m) / INR (fact m)) (fun m => form N (c i j) (repeat (series a d i) m) / INR (fact m))). ring. }
  apply (big_plus valid h dl); [apply (big_weaken valid h dl H HH HD p); [lia|apply Hg; assumption]|].
  apply (big_rsum valid h dl HD). intros m Hm. apply (big_scale valid h dl H HH HD).
  assert (SB : forall k, (k < N)%nat -> big 0 (fun i => series a d i k)) by (intros; apply series_big; assumption).
  apply (form_diff valid h dl H HH HD N (S d) m (fun i => c i j) u (series a d)); [intros idx Li; apply Hc; [assumption|lia]| |exact SB|exact Hu].
  intros k Hk. apply (big_ext valid h dl 0 (fun i => (u i k - series a d i k) + series a d i k)); [intros; ring|].
  apply (big_plus valid h dl); [apply (big_weaken valid h dl H HH HD (S d)); [lia|apply Hu; assumption]|apply SB; assumption].
Qed.
End Compose.
