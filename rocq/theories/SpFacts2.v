(** SpFacts2.v - views of sparse matrices and operations between matrices. *)
From Coq Require Import List Arith Bool Lia.
From Verif Require Import Base BaseFacts SMap SpModel SpSpec SpFacts.
Import ListNotations.

Section SpFacts2.
Context {N : Num}.
Notation T := (nT N).
Implicit Types (a : smat N) (d l : list (key * T)) (p q b : key) (e dst src : sexpr N) (m : mems N).

Lemma of_base_sound e b p : of_base e b = Some p -> to_base e p = b /\ presents e p.
Proof.
  revert p; induction e as [id|e IH f s|e IH|e IH k]; intros p H; simpl in *.
  - injection H as <-. auto.
  - destruct (of_base e b) as [q|]; [|discriminate].
    destruct ((fst f <=? fst q) && (fst q <? fst f + fst s) && (snd f <=? snd q) && (snd q <? snd f + snd s)) eqn:C; [|discriminate].
    injection H as <-. rewrite !andb_true_iff, !Nat.leb_le, !Nat.ltb_lt in C. simpl.
    replace (fst q - fst f + fst f) with (fst q) by lia. replace (snd q - snd f + snd f) with (snd q) by lia.
    destruct (IH (fst q, snd q)) as [A B]; [destruct q; reflexivity|]. repeat split; auto; lia.
  - destruct (of_base e b) as [q|]; [|discriminate]. injection H as <-. unfold swapk; simpl.
    apply IH. destruct q; reflexivity.
  - apply IH; assumption.
Qed.
Lemma of_base_complete e p : presents e p -> of_base e (to_base e p) = Some p.
Proof.
  revert p; induction e as [id|e IH f s|e IH|e IH k]; intros p H; simpl in *.
  - reflexivity.
  - destruct H as [[H1 H2] H3]. rewrite IH by assumption. simpl.
    destruct (Nat.leb_spec (fst f) (fst p + fst f)), (Nat.ltb_spec (fst p + fst f) (fst f + fst s)),
      (Nat.leb_spec (snd f) (snd p + snd f)), (Nat.ltb_spec (snd p + snd f) (snd f + snd s)); simpl; try lia.
    rewrite !Nat.add_sub. destruct p; reflexivity.
  - unfold swapk. rewrite IH by assumption. destruct p; reflexivity.
  - auto.
Qed.
Lemma to_base_inj e p q : presents e p -> presents e q -> to_base e p = to_base e q -> p = q.
Proof. intros P Q E. apply of_base_complete in P, Q. rewrite E in P. congruence. Qed.
Lemma to_base_inj' e p q : to_base e p = to_base e q -> p = q.
Proof.
  revert p q; induction e as [id|e IH f s|e IH|e IH k]; intros p q H; simpl in *; auto.
  - apply IH in H. destruct p, q; injection H; intros. f_equal; simpl in *; lia.
  - apply IH in H. destruct p, q; unfold swapk in H; simpl in H. congruence.
Qed.

Definition vlist e d : list (key * T) :=
  flat_map (fun el => match of_base e (fst el) with Some p => [(p, sscale e (snd el))] | None => [] end) d.
Lemma siter_vlist m e : siter m e = vlist e (sdat (obj m (sbase e))). Proof. reflexivity. Qed.

Lemma vlist_In e d p x : In (p, x) (vlist e d) <-> presents e p /\ exists y, In (to_base e p, y) d /\ x = sscale e y.
Proof.
  unfold vlist. rewrite in_flat_map. split.
  - intros [[b y] [I H]]. simpl in H. destruct (of_base e b) as [p'|] eqn:E; [|destruct H].
    destruct H as [H|[]]. injection H as -> <-. apply of_base_sound in E as [<- P]. eauto.
  - intros [P [y [I ->]]]. exists (to_base e p, y). split; [exact I|]. simpl. rewrite of_base_complete by assumption. left; reflexivity.
Qed.
Lemma vlist_NoDup e d : row_major d -> NoDup (map fst (vlist e d)).
Proof.
  induction d as [|[b y] t IH]; intros S; simpl; [constructor|]. destruct S as [S1 S2].
  rewrite map_app. destruct (of_base e b) as [p|] eqn:E; simpl; [|auto].
  constructor; [|auto]. intros I. apply in_map_iff in I as [[p' x] [Ep I]]. simpl in Ep; subst p'.
  apply vlist_In in I as [P [y' [I _]]]. apply of_base_sound in E as [E _]. rewrite E in I. apply S1 in I.
  destruct (before_irrefl _ I).
Qed.
Lemma row_major_fun d p x y : row_major d -> In (p, x) d -> In (p, y) d -> x = y.
Proof.
  induction d as [|[b z] t IH]; intros S; simpl; [tauto|]. destruct S as [S1 S2]. intros [A|A] [B|B].
  - congruence.
  - injection A as -> ->. apply S1 in B. destruct (before_irrefl _ B).
  - injection B as -> ->. apply S1 in A. destruct (before_irrefl _ A).
  - auto.
Qed.

Lemma siter_In m e p x : mems_ok m -> (In (p, x) (siter m e) <-> presents e p /\ exists y, sfind (obj m (sbase e)) (to_base e p) = Some y /\ x = sscale e y).
Proof.
  intros OK. rewrite siter_vlist, vlist_In. split; intros [P [y [I E]]]; (split; [exact P|]); exists y; (split; [|exact E]);
  apply (sfind_In _ _ _ (OK _)); exact I.
Qed.
Lemma siter_get m e p x : mems_ok m -> In (p, x) (siter m e) -> sget m e p = x.
Proof. intros OK I. apply siter_In in I as [_ [y [F ->]]]; [|assumption]. unfold sget, get. rewrite F. reflexivity. Qed.
Lemma siter_absent m e p : mems_ok m -> presents e p -> (forall x, ~ In (p, x) (siter m e)) -> sget m e p = sscale e (n0 N) /\ sfind (obj m (sbase e)) (to_base e p) = None.
Proof.
  intros OK P H. unfold sget, get. destruct (sfind (obj m (sbase e)) (to_base e p)) as [y|] eqn:F; [|auto].
  destruct (H (sscale e y)). apply siter_In; eauto.
Qed.

(** ** range-for over a view whose source the body does not modify *)
Fixpoint sfold (body : key -> T -> mems N -> mems N * Outcome unit) l m : mems N * Outcome unit :=
  match l with
  | [] => (m, Ret tt)
  | (p, x) :: t => match body p x m with (m', Ret _) => sfold body t m' | r => r end
  end.

Definition le_after (after : option key) b : Prop := match after with None => False | Some k => ~ before k b end.
Definition gt_after (after : option key) b : Prop := match after with None => True | Some k => before k b end.

Lemma next_elem_skip e after d1 d2 : (forall b x, In (b, x) d1 -> le_after after b) ->
  next_elem e after (d1 ++ d2) = next_elem e after d2.
Proof.
  induction d1 as [|[b x] t IH]; intros H; simpl; [reflexivity|].
  assert (Q := H b x (or_introl eq_refl)). destruct after as [k|]; simpl in Q; [|tauto].
  assert (kltb k b = false) as -> by (apply kltb_false; exact Q). apply IH. intros; eapply H; right; eassumption.
Qed.

Lemma rfor_split e body : (forall p x m, obj (fst (body p x m)) (sbase e) = obj m (sbase e)) ->
  forall post pre after fuel m, sdat (obj m (sbase e)) = pre ++ post -> row_major (pre ++ post) ->
  (forall b x, In (b, x) pre -> le_after after b) -> (forall b x, In (b, x) post -> gt_after after b) ->
  length post < fuel -> rfor fuel e body after m = Some (sfold body (vlist e post) m).
Proof.
  intros HB. induction post as [|[b x] post IH]; intros pre after fuel m E S L G F.
  - destruct fuel as [|fuel]; [simpl in F; lia|]. simpl. rewrite E, next_elem_skip by assumption. reflexivity.
  - destruct fuel as [|fuel]; [simpl in F; lia|]. simpl in F.
    assert (S' : row_major ((pre ++ [(b, x)]) ++ post)) by (rewrite <- app_assoc; exact S).
    assert (E' : sdat (obj m (sbase e)) = (pre ++ [(b, x)]) ++ post) by (rewrite <- app_assoc; exact E).
    assert (LB : forall q y, In (q, y) post -> before b q).
    { clear -S. induction pre as [|[k z] pre IHp]; simpl in S; [destruct S as [S _]; exact S|].
      destruct S as [_ S]. exact (IHp S). }
    assert (LP : forall k z, In (k, z) pre -> before k b).
    { clear -S. induction pre as [|[k z] pre IHp]; simpl in *; [tauto|]. destruct S as [S1 S2].
      intros k' z' [Q|Q]; [injection Q as <- <-; eapply (S1 b x); apply in_or_app; right; left; reflexivity|exact (IHp S2 k' z' Q)]. }
    assert (P2 : forall q y, In (q, y) (pre ++ [(b, x)]) -> le_after (Some b) q).
    { intros q y I. simpl. apply in_app_or in I as [I|[I|[]]].
      - apply LP in I. intros Q. eapply before_irrefl, before_trans; eassumption.
      - injection I as <- <-. apply before_irrefl. }
    assert (NX : next_elem e after ((b, x) :: post) =
                 match of_base e b with Some p => Some (b, p, sscale e x) | None => next_elem e after post end).
    { simpl. assert (Q := G b x (or_introl eq_refl)). destruct after as [k|]; simpl in Q; [|reflexivity].
      apply kltb_before in Q. rewrite Q. reflexivity. }
    change (vlist e ((b, x) :: post)) with
      ((match of_base e b with Some p => [(p, sscale e x)] | None => [] end) ++ vlist e post).
    destruct (of_base e b) as [p|] eqn:OB.
    + simpl rfor. rewrite E, next_elem_skip by assumption. rewrite NX. simpl sfold.
      destruct (body p (sscale e x) m) as [m' r] eqn:BD. destruct r as [u| |]; try reflexivity.
      assert (OE : obj m' (sbase e) = obj m (sbase e)).
      { specialize (HB p (sscale e x) m). rewrite BD in HB. exact HB. }
      apply (IH (pre ++ [(b, x)]) (Some b) fuel m'); auto; try lia. rewrite OE; exact E'.
    + simpl app.
      (* the skipped element: same as looking past it *)
      specialize (IH (pre ++ [(b, x)]) (match after with None => Some b | Some k => Some b end) (Datatypes.S fuel) m E' S').
      assert (Q : rfor (Datatypes.S fuel) e body (Some b) m = Some (sfold body (vlist e post) m)).
      { destruct after; apply IH; auto; try lia. }
      rewrite <- Q. simpl rfor. rewrite E. rewrite next_elem_skip by assumption. rewrite NX.
      rewrite <- E, E', (next_elem_skip e (Some b)) by exact P2.
      assert (NE : next_elem e after post = next_elem e (Some b) post).
      { clear -G LB. assert (G' : forall q y, In (q, y) post -> gt_after after q) by (intros; eapply G; right; eassumption).
        clear G. induction post as [|[q y] t IHt]; simpl; [reflexivity|].
        assert (Q1 := LB q y (or_introl eq_refl)). apply kltb_before in Q1. rewrite Q1.
        assert (Q2 := G' q y (or_introl eq_refl)).
        assert ((match after with None => true | Some a0 => kltb a0 q end) = true) as ->
          by (destruct after; [apply kltb_before; exact Q2|reflexivity]).
        rewrite IHt; [reflexivity| |]; intros; [eapply LB|eapply G']; right; eassumption. }
      rewrite NE. reflexivity.
Qed.
Lemma rfor_fold e body m fuel : (forall p x m, obj (fst (body p x m)) (sbase e) = obj m (sbase e)) ->
  row_major (sdat (obj m (sbase e))) -> length (sdat (obj m (sbase e))) < fuel ->
  rfor fuel e body None m = Some (sfold body (siter m e) m).
Proof.
  intros HB S F. apply (rfor_split e body HB (sdat (obj m (sbase e))) [] None fuel m); auto; simpl; tauto.
Qed.

Lemma obj_upd m id j a : id < length m -> obj (upd m id a) j = if Nat.eqb j id then a else obj m j.
Proof.
  intros H. unfold obj. rewrite nth_upd. destruct (Nat.eqb_spec j id) as [->|]; simpl; [|reflexivity].
  apply Nat.ltb_lt in H. rewrite H. reflexivity.
Qed.
Lemma obj_upd_other m id j a : j <> id -> obj (upd m id a) j = obj m j.
Proof. intros H. unfold obj. apply nth_upd_neq. assumption. Qed.
Lemma sat_upd_other m dst p f j : j <> sbase dst -> obj (fst (sat_upd m dst p f)) j = obj m j.
Proof. intros D. unfold sat_upd. destruct at_upd; simpl; try reflexivity. apply obj_upd_other; assumption. Qed.

(** ** element-by-element update of a destination *)
Lemma sfold_upd (op : T -> T -> T) l : forall m dst, mems_ok m -> sbase dst < length m -> NoDup (map fst l) ->
  (fast (obj m (sbase dst)) = true -> forall p x, In (p, x) l -> exists y, In (to_base dst p, y) (sdat (obj m (sbase dst)))) ->
  exists m', sfold (fun p x m => sat_upd m dst p (fun y => op y x)) l m = (m', Ret tt) /\ mems_ok m' /\
    others_same m m' (sbase dst) /\ fast (obj m' (sbase dst)) = fast (obj m (sbase dst)) /\ ssz (obj m' (sbase dst)) = ssz (obj m (sbase dst)) /\
    (forall p x, In (p, x) l -> sfind (obj m' (sbase dst)) (to_base dst p) = Some (op (get (obj m (sbase dst)) (to_base dst p)) x)) /\
    (forall q, (forall p x, In (p, x) l -> to_base dst p <> q) -> sfind (obj m' (sbase dst)) q = sfind (obj m (sbase dst)) q).
Proof.
  induction l as [|[p x] l IH]; intros m dst OK B ND PT.
  - exists m. simpl. repeat split; auto; intros; contradiction.
  - simpl in ND. inversion_clear ND as [|? ? NI ND']. set (o := obj m (sbase dst)) in *.
    destruct (at_upd_ok o (to_base dst p) (fun y => op y x)) as [a' [E1 [E2 [E3 [E4 [E5 E6]]]]]].
    { apply OK. } { intros F. apply (PT F p x). left; reflexivity. }
    assert (SA : sat_upd m dst p (fun y => op y x) = (upd m (sbase dst) a', Ret tt)) by (unfold sat_upd; fold o; rewrite E1; reflexivity).
    simpl. rewrite SA.
    set (m1 := upd m (sbase dst) a').
    assert (O1 : obj m1 (sbase dst) = a') by (unfold m1; rewrite obj_upd, Nat.eqb_refl; auto).
    assert (OO : forall j, j <> sbase dst -> obj m1 j = obj m j) by (intros; unfold m1; apply obj_upd_other; assumption).
    assert (OK1 : mems_ok m1).
    { intros j. destruct (Nat.eq_dec j (sbase dst)) as [->|D]; [rewrite O1; exact E4|rewrite OO by assumption; apply OK]. }
    destruct (IH m1 dst) as [m' [R [OK' [OS [FA [SZ [V1 V2]]]]]]]; auto.
    { unfold m1; rewrite upd_length; assumption. }
    { intros F p' x' I. rewrite O1 in *. rewrite E2 in F. destruct (PT F p' x' (or_intror I)) as [y Hy].
      destruct (keqb2_spec (to_base dst p') (to_base dst p)) as [Q|Q].
      - exists (op (get o (to_base dst p)) x). rewrite Q. apply sfind_In; assumption.
      - exists y. apply sfind_In; [assumption|]. rewrite E6 by assumption. apply sfind_In; [apply OK|assumption]. }
    exists m'. rewrite O1 in *. split; [exact R|]. split; [exact OK'|]. split.
    { destruct OS as [OS1 OS2]. split; [rewrite OS1; unfold m1; apply upd_length|]. intros j D. rewrite OS2, OO by assumption. reflexivity. }
    split; [congruence|]. split; [congruence|]. split.
    + intros p' x' [I|I].
      * injection I as <- <-. rewrite V2; [exact E5|]. intros p' x' I Q. apply to_base_inj' in Q. subst p'.
        apply NI. apply in_map_iff. exists (p, x'); auto.
      * rewrite (V1 p' x' I). f_equal. f_equal. unfold get. rewrite E6; [reflexivity|].
        intros Q. apply to_base_inj' in Q. subst p'. apply NI. apply in_map_iff. exists (p, x'); auto.
    + intros q H. rewrite V2.
      * apply E6. intros ->. eapply H; [left; reflexivity|reflexivity].
      * intros p' x' I. eapply H. right; exact I.
Qed.

(** a fast destination not covering the pattern: exception *)
Lemma sfold_upd_fail (op : T -> T -> T) l : forall m dst, mems_ok m -> sbase dst < length m ->
  fast (obj m (sbase dst)) = true -> (exists p x, In (p, x) l /\ forall y, ~ In (to_base dst p, y) (sdat (obj m (sbase dst)))) ->
  snd (sfold (fun p x m => sat_upd m dst p (fun y => op y x)) l m) = Throw.
Proof.
  induction l as [|[p x] l IH]; intros m dst OK B F [p0 [x0 [I H]]]; [destruct I|].
  simpl. set (o := obj m (sbase dst)) in *.
  destruct (fast_pos (sdat o) (to_base dst p)) as [i|] eqn:P.
  - apply fast_pos_spec in P as [z P]; [|apply OK]. apply nth_error_In in P.
    destruct (at_upd_fast o (to_base dst p) (fun y => op y x) F (OK _) z P) as [a' [E1 [E2 [E3 [E4 [E5 [E6 E7]]]]]]].
    assert (SA : sat_upd m dst p (fun y => op y x) = (upd m (sbase dst) a', Ret tt)) by (unfold sat_upd; fold o; rewrite E1; reflexivity).
    rewrite SA. set (m1 := upd m (sbase dst) a').
    assert (O1 : obj m1 (sbase dst) = a') by (unfold m1; rewrite obj_upd, Nat.eqb_refl; auto).
    apply IH.
    + intros j. destruct (Nat.eq_dec j (sbase dst)) as [->|D]; [rewrite O1; exact E4|unfold m1; rewrite obj_upd_other by assumption; apply OK].
    + unfold m1; rewrite upd_length; assumption.
    + rewrite O1; exact E2.
    + exists p0, x0. split.
      * destruct I as [I|I]; [|exact I]. injection I as -> ->. destruct (H z P).
      * intros y Iy. rewrite O1 in Iy. assert (Q : In (to_base dst p0) (map fst (sdat o))).
        { rewrite <- E7. apply in_map_iff. exists (to_base dst p0, y); auto. }
        apply in_map_iff in Q as [[k w] [Ek Q]]. simpl in Ek; subst k. exact (H w Q).
  - assert (AU : at_upd o (to_base dst p) (fun y => op y x) = Throw) by (unfold at_upd; rewrite F, P; reflexivity).
    unfold sat_upd. fold o. rewrite AU. reflexivity.
Qed.
End SpFacts2.
