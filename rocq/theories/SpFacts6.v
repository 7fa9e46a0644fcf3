(** SpFacts6.v - norms of sparse matrices and views. *)
From Coq Require Import List Arith Bool Lia QArith Qcanon.
From Verif Require Import Base BaseFacts SMap SpModel SpSpec SpFacts SpFacts2 SpFacts3 SpFacts4.
Import ListNotations.
Local Open Scope nat_scope.

Section Norms.
Local Open Scope Qc_scope.
Lemma fold_left_add (f : Qc -> Qc) (l : list (key * Qc)) : forall s, fold_left (fun s el => s + f (snd el)) l s = s + fold_right (fun el s => f (snd el) + s) 0 l.
Proof. induction l as [|el l I]; intros s; simpl; [ring|]. rewrite I. ring. Qed.
Lemma key_sum (f : Qc -> Qc) (R C : nat) : f 0 = 0 -> forall (l : list (key * Qc)) (v : key -> Qc), NoDup (map fst l) ->
  (forall p x, In (p, x) l -> (fst p < R)%nat /\ (snd p < C)%nat /\ v p = x) ->
  (forall p, (fst p < R)%nat -> (snd p < C)%nat -> (forall x, ~ In (p, x) l) -> v p = 0) ->
  fold_right (fun el s => f (snd el) + s) 0 l = qsum R (fun r => qsum C (fun c => f (v (r, c)))).
Proof.
  intros F0. induction l as [|[[i j] x] l IH]; intros v ND H Z.
  - simpl. symmetry. apply qsum_zero. intros r Hr. apply qsum_zero. intros c Hc. rewrite Z; auto.
  - simpl in ND. inversion_clear ND as [|? ? NI ND']. destruct (H (i, j) x (or_introl eq_refl)) as [Hi [Hj Vi]]. simpl in Hi, Hj.
    cbn [fold_right snd]. rewrite (IH (fun p => if keqb2 p (i, j) then 0 else v p) ND').
    + rewrite (qsum_remove R i (fun r => qsum C (fun c => f (v (r, c)))) Hi).
      rewrite (qsum_remove C j (fun c => f (v (i, c))) Hj), Vi, <- Qcplus_assoc. f_equal.
      rewrite (qsum_remove R i (fun r => qsum C (fun c => f (if keqb2 (r, c) (i, j) then 0 else v (r, c)))) Hi). f_equal.
      * apply qsum_ext. intros c _. unfold keqb2. cbn [fst snd]. rewrite Nat.eqb_refl. cbn [andb]. destruct (Nat.eqb c j); congruence.
      * apply qsum_ext. intros r _. destruct (Nat.eqb_spec r i) as [|D]; [reflexivity|]. apply qsum_ext. intros c _. unfold keqb2. cbn [fst snd].
        destruct (Nat.eqb_spec r i); [contradiction|]. reflexivity.
    + intros p y I. destruct (H p y (or_intror I)) as [A [B E]]. repeat split; try assumption.
      destruct (keqb2 p (i, j)) eqn:K; [|assumption]. unfold keqb2 in K. apply andb_prop in K. destruct K as [K1 K2].
      apply Nat.eqb_eq in K1, K2. destruct NI. apply in_map_iff. exists (p, y). split; [|assumption]. destruct p; simpl in *; congruence.
    + intros p A B Q. destruct (keqb2 p (i, j)) eqn:K; [reflexivity|]. apply Z; try assumption.
      intros y [E|I]; [|exact (Q y I)]. inversion E; subst. unfold keqb2 in K. cbn [fst snd] in K. rewrite !Nat.eqb_refl in K. discriminate.
Qed.
Lemma fold_left_max (l : list (key * Qc)) : forall s, let r := fold_left (fun s el => if Qcltb s (Qcabs (snd el)) then Qcabs (snd el) else s) l s in
  s <= r /\ (forall p x, In (p, x) l -> Qcabs x <= r) /\ (r = s \/ exists p x, In (p, x) l /\ r = Qcabs x).
Proof.
  induction l as [|[p x] l I]; intros s; cbn [fold_left snd].
  - cbn. repeat split; [apply Qcle_refl|contradiction|left; reflexivity].
  - specialize (I (if Qcltb s (Qcabs x) then Qcabs x else s)). destruct I as [A [B C]].
    assert (K : s <= (if Qcltb s (Qcabs x) then Qcabs x else s) /\ Qcabs x <= (if Qcltb s (Qcabs x) then Qcabs x else s)) by (qcase s (Qcabs x); split; qclra).
    destruct K as [K1 K2]. split; [exact (Qcle_trans _ _ _ K1 A)|]. split.
    + intros q y [E|J]; [inversion E; subst; exact (Qcle_trans _ _ _ K2 A)|exact (B q y J)].
    + destruct C as [C|[q [y [J C]]]]; [|right; exists q, y; split; [right|]; assumption].
      rewrite C. destruct (Qcltb s (Qcabs x)); [right; exists p, x; split; [left|]; reflexivity|left; reflexivity].
Qed.
Lemma key_dec (x y : key) : {x = y} + {x <> y}.
Proof. decide equality; apply Nat.eq_dec. Qed.
Lemma sparse_norms (m : mems QcNum) (e : sexpr QcNum) : mems_ok m -> in_range m e ->
  let a := fun r c => sget m e (r, c) in let R := fst (ssize m e) in let C := snd (ssize m e) in
  (forall r c, (r < R)%nat -> (c < C)%nat -> Qcabs (a r c) <= sinfnorm m e) /\
  (sinfnorm m e = 0 \/ exists r c, (r < R)%nat /\ (c < C)%nat /\ sinfnorm m e = Qcabs (a r c)) /\
  sonenorm m e = qsum R (fun r => qsum C (fun c => Qcabs (a r c))) /\
  seuclsq m e = qsum R (fun r => qsum C (fun c => a r c * a r c)).
Proof.
  intros OK [IN PR] a R C.
  assert (ABS : forall p, (fst p < R)%nat -> (snd p < C)%nat -> (forall x, ~ In (p, x) (siter m e)) -> sget m e p = 0).
  { intros p A B Q. destruct (siter_absent m e p OK (PR p A B) Q) as [E _]. rewrite E. apply sscale_zero. }
  assert (SUM : forall f : Qc -> Qc, f 0 = 0 -> fold_left (fun s el => s + f (snd el)) (siter m e) 0 = qsum R (fun r => qsum C (fun c => f (a r c)))).
  { intros f F0. rewrite fold_left_add, Qcplus_0_l. apply (key_sum f R C F0 (siter m e) (sget m e) (siter_NoDup m e OK)); [|exact ABS].
    intros p x I. destruct (IN p x I) as [A B]. repeat split; try assumption. exact (siter_get m e p x OK I). }
  destruct (fold_left_max (siter m e) 0) as [M1 [M2 M3]].
  change (fold_left _ (siter m e) 0) with (sinfnorm m e) in M1, M2, M3.
  split; [|split; [|split]].
  - intros r c Hr Hc. destruct (in_dec key_dec (r, c) (map fst (siter m e))) as [I|NI].
    + apply in_map_iff in I. destruct I as [[p x] [E I]]. simpl in E. subst p. unfold a. rewrite (siter_get m e _ _ OK I). exact (M2 _ _ I).
    + unfold a. rewrite (ABS (r, c)); [|assumption|assumption|]. { exact M1. }
      intros x I. apply NI. apply in_map_iff. exists ((r, c), x). split; [reflexivity|assumption].
  - destruct M3 as [M3|[[r c] [x [I M3]]]]; [left; assumption|right]. exists r, c. destruct (IN _ _ I) as [A B]. simpl in A, B.
    split; [assumption|]. split; [assumption|]. unfold a. rewrite (siter_get m e _ _ OK I). exact M3.
  - apply (SUM Qcabs). reflexivity.
  - apply (SUM (fun x => x * x)). reflexivity.
Qed.
End Norms.
