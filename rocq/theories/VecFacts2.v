(** VecFacts2.v - exact-arithmetic facts about the dot product and the norms. *)
From Coq Require Import List Arith Bool Lia QArith Qcanon.
From Verif Require Import Base BaseFacts VecModel VecSpec VecFacts.
Import ListNotations.
Local Open Scope Qc_scope.

Section Exact.
Notation E := (vexpr QcNum).
Implicit Types (m : mem QcNum) (e : E).

Lemma vdot_ok m a b la lb : well_formed m a -> well_formed m b -> (vsize m a <= vsize m b)%nat ->
  elements m a la -> elements m b lb ->
  vdot m a b = Ret (qsum (length la) (fun i => nth i la 0 * nth i lb 0)).
Proof.
  intros WA WB SZ EA EB. apply elements_eq in EA; [|assumption]. apply elements_eq in EB; [|assumption]. subst la lb.
  assert (LA : length (elems m a) = vsize m a) by (unfold elems; rewrite map_length, seq_length; reflexivity).
  rewrite LA. unfold vdot.
  destruct (ofor_inv (fun k (s : Qc) => s = qsum k (fun i => nth i (elems m a) 0 * nth i (elems m b) 0)) 0 (vsize m a)
     (fun i (s : Qc) => x <- vat m a i ;; y <- vat m b i ;; Ret (s + x * y)) 0) as [s [R Q]].
  - lia.
  - reflexivity.
  - intros i s Hi ->. destruct (getd_ok m a i WA ltac:(lia)) as [Q1 _]. destruct (getd_ok m b i WB ltac:(lia)) as [Q2 _].
    rewrite Q1, Q2. simpl. eexists; split; [reflexivity|]. unfold elems. rewrite !nth_map_seq by lia. reflexivity.
  - subst s. exact R.
Qed.

Lemma fold_max (l : list Qc) : forall s, 0 <= s -> let r := fold_left (fun s x => nmax QcNum s (Qcabs x)) l s in
  s <= r /\ (forall x, In x l -> Qcabs x <= r) /\ (r = s \/ exists x, In x l /\ r = Qcabs x).
Proof.
  induction l as [|x l IH]; intros s Hs; simpl. { split; [apply Qcle_refl|]. split; [tauto|left; reflexivity]. }
  change (nmax QcNum s (Qcabs x)) with (Qcmaxb s (Qcabs x)).
  assert (H0 : 0 <= Qcmaxb s (Qcabs x)) by (pose proof (Qcmaxb_l s (Qcabs x)); qclra).
  destruct (IH _ H0) as [A [B C]].
  pose proof (Qcmaxb_l s (Qcabs x)); pose proof (Qcmaxb_r s (Qcabs x)).
  split; [eapply Qcle_trans; eassumption|]. split.
  - intros y [->|Hy]; [eapply Qcle_trans; eassumption|auto].
  - destruct C as [C|[y [Hy C]]].
    + destruct (Qcmaxb_or s (Qcabs x)) as [D|D]; [left|right; exists x; split; [auto|]]; etransitivity; eassumption.
    + right; exists y; auto.
Qed.
Lemma fold_sum (f : Qc -> Qc) (l : list Qc) : forall s, fold_left (fun s x => s + f x) l s = s + qsum (length l) (fun i => f (nth i l 0)).
Proof.
  induction l as [|x l IH]; intros s. { simpl. ring. }
  simpl fold_left. rewrite IH. simpl length. rewrite qsum_shift. simpl. ring.
Qed.

Lemma norms_ok m e l : well_formed m e -> elements m e l ->
  (exists r, vinfnorm m e = Ret r /\ (forall x, In x l -> Qcabs x <= r) /\ ((l = [] /\ r = 0) \/ exists x, In x l /\ r = Qcabs x)) /\
  vonenorm m e = Ret (qsum (length l) (fun i => Qcabs (nth i l 0))) /\
  veuclsq m e = Ret (qsum (length l) (fun i => nth i l 0 * nth i l 0)).
Proof.
  intros W EL. apply elements_eq in EL; [|assumption]. subst l.
  unfold vinfnorm, vonenorm, veuclsq. rewrite vread_ok by assumption. set (l := elems m e). cbn [obind].
  split; [|split].
  - eexists; split; [reflexivity|]. destruct (fold_max l 0 ltac:(qclra)) as [A [B C]]. split; [exact B|].
    destruct C as [C|C]; [|right; exact C]. destruct l as [|x l']; [left; split; [reflexivity|exact C]|].
    right. exists x. split; [left; reflexivity|].
    assert (Q := B x (or_introl eq_refl)). pose proof (Qcabs_nonneg x). apply Qc_is_canon. apply Qle_antisym.
    + change (fold_left (fun s y => nmax QcNum s (Qcabs y)) (x :: l') 0 <= Qcabs x)%Qc. rewrite C. exact H.
    + exact Q.
  - f_equal. change (fold_left (fun s x => s + Qcabs x) l 0 = qsum (length l) (fun i => Qcabs (nth i l 0))).
    rewrite (fold_sum Qcabs). apply Qcplus_0_l.
  - f_equal. change (fold_left (fun s x => s + x * x) l 0 = qsum (length l) (fun i => nth i l 0 * nth i l 0)).
    rewrite (fold_sum (fun x => x * x)). apply Qcplus_0_l.
Qed.
End Exact.
