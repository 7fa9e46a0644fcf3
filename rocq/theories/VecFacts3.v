(** VecFacts3.v - the property statements about vectors, from VecFacts. *)
From Coq Require Import List Arith Lia.
From Verif Require Import Base BaseFacts VecModel VecSpec VecFacts.
Import ListNotations.

Lemma only_changes_other (N : Num) (m m' : mem N) dst src : only_changes m m' dst -> vbase src <> vbase dst ->
  forall i, vat m' src i = vat m src i.
Proof. intros [_ [_ H]] D i. rewrite !vat_char. specialize (H (vbase src) (i + voff src) (or_introl D)). unfold cell in H. rewrite H. reflexivity. Qed.

Lemma compound_elementwise (N : Num) (op : nT N -> nT N -> nT N) (m : mem N) (dst src : vexpr N) :
  well_formed m dst -> assignable dst -> well_formed m src -> vsize m dst <= vsize m src -> order_safe m dst src ->
  exists m', vloop N (vcompound_body N op dst src) (vsize m dst) 0 m = (m', Ret tt) /\ only_changes m m' dst /\
    (forall i x y, i < vsize m dst -> vat m dst i = Ret x -> vat m src i = Ret y -> vat m' dst i = Ret (op x y)) /\
    (vbase src <> vbase dst -> forall i, vat m' src i = vat m src i).
Proof.
  intros W A WS L S. destruct (compound_ok op m dst src W A S) as [m' [R [OC V]]].
  { intros i Hi. apply vat_ok; [assumption|lia]. }
  exists m'. split; [exact R|]. split; [exact OC|]. split; [exact V|]. intros D. eapply only_changes_other; eassumption.
Qed.
Lemma plus_elementwise (N : Num) (m : mem N) (dst src : vexpr N) :
  well_formed m dst -> assignable dst -> well_formed m src -> vsize m dst <= vsize m src -> order_safe m dst src ->
  exists m', vpluseq m dst src = (m', Ret tt) /\ only_changes m m' dst /\
    (forall i x y, i < vsize m dst -> vat m dst i = Ret x -> vat m src i = Ret y -> vat m' dst i = Ret (nadd N x y)) /\
    (vbase src <> vbase dst -> forall i, vat m' src i = vat m src i).
Proof. exact (compound_elementwise N (nadd N) m dst src). Qed.
Lemma minus_elementwise (N : Num) (m : mem N) (dst src : vexpr N) :
  well_formed m dst -> assignable dst -> well_formed m src -> vsize m dst <= vsize m src -> order_safe m dst src ->
  exists m', vminuseq m dst src = (m', Ret tt) /\ only_changes m m' dst /\
    (forall i x y, i < vsize m dst -> vat m dst i = Ret x -> vat m src i = Ret y -> vat m' dst i = Ret (nsub N x y)) /\
    (vbase src <> vbase dst -> forall i, vat m' src i = vat m src i).
Proof. exact (compound_elementwise N (nsub N) m dst src). Qed.

Lemma views_read (N : Num) (m : mem N) (e : vexpr N) (k : nT N) (from s i : nat) :
  (forall x, vat m e i = Ret x -> vat m (VS e k) i = Ret (nmul N x k)) /\ vsize m (VS e k) = vsize m e /\
  vat m (VB e from s) i = vat m e (i + from) /\ vsize m (VB e from s) = s.
Proof. repeat split. intros x E. simpl. rewrite E. reflexivity. Qed.

Lemma shorter_operand (N : Num) (m : mem N) (dst : vexpr N) (b : nat) :
  well_formed m dst -> assignable dst -> b < length m -> b <> vbase dst -> vsize m (VW b) < vsize m dst ->
  (exists m', vpluseq m dst (VW b) = (m', Throw) /\ only_changes m m' dst /\
     (forall i x y, i < vsize m (VW b) -> vat m dst i = Ret x -> vat m (VW b) i = Ret y -> vat m' dst i = Ret (nadd N x y)) /\
     (forall i, vsize m (VW b) <= i -> vat m' dst i = vat m dst i)) /\
  (exists m', vminuseq m dst (VW b) = (m', Throw) /\ only_changes m m' dst /\
     (forall i x y, i < vsize m (VW b) -> vat m dst i = Ret x -> vat m (VW b) i = Ret y -> vat m' dst i = Ret (nsub N x y)) /\
     (forall i, vsize m (VW b) <= i -> vat m' dst i = vat m dst i)).
Proof.
  intros W A B D L.
  assert (OS : order_safe m dst (VW b)) by (left; simpl; congruence).
  assert (F : vat m (VW b) (vsize m (VW b)) = Throw) by (simpl; apply rdat_throw; lia).
  assert (H : forall i, i < vsize m (VW b) -> exists y, vat m (VW b) i = Ret y) by (intros i Hi; apply vat_ok; [exact B|exact Hi]).
  split; [exact (compound_short (nadd N) m dst (VW b) _ W A OS L H F)|exact (compound_short (nsub N) m dst (VW b) _ W A OS L H F)].
Qed.

Lemma assign_vector (N : Num) (m : mem N) (id : nat) (src : vexpr N) (l : list (nT N)) :
  id < length m -> well_formed m src -> vbase src <> id -> elements m src l ->
  exists m', vassign m (VW id) src = (m', Ret tt) /\ replaced m m' id l.
Proof. intros I W D E. apply elements_eq in E; [subst; apply assign_ok; assumption|assumption]. Qed.
Lemma clone_elements (N : Num) (m : mem N) (src : vexpr N) (l : list (nT N)) :
  well_formed m src -> elements m src l -> vclone m src = (m ++ [l], Ret (length m)).
Proof. intros W E. apply elements_eq in E; [subst; apply clone_ok; assumption|assumption]. Qed.
Lemma sum_difference (N : Num) (m : mem N) (a b : vexpr N) (la lb : list (nT N)) :
  well_formed m a -> well_formed m b -> elements m a la -> elements m b lb -> length la = length lb ->
  vplus m a b = (m ++ [map (fun p => nadd N (fst p) (snd p)) (combine la lb)], Ret (length m)) /\
  vminus m a b = (m ++ [map (fun p => nsub N (fst p) (snd p)) (combine la lb)], Ret (length m)).
Proof.
  intros WA WB EA EB L. assert (SZ : vsize m a = vsize m b) by (destruct EA, EB; congruence).
  apply elements_eq in EA; [|assumption]. apply elements_eq in EB; [|assumption]. subst la lb.
  unfold vplus, vminus. rewrite (clone_ok m a WA). unfold vpluseq, vminuseq. rewrite !sum_ok by assumption. auto.
Qed.
