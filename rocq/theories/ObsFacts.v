(** ObsFacts.v - proofs about observer lists *)
From Coq Require Import List Arith Lia ZArith Bool.
Require Import Verif.Base Verif.BaseFacts Verif.SMap Verif.ObsModel Verif.ObsSpec.
Import ListNotations.
Local Open Scope Z_scope.

Section F.
Context {T : Type}.
Implicit Types m : elements T.

Lemma klt_Z a b : klt TOZ a b <-> a < b.
Proof. unfold klt; simpl. apply Z.compare_lt_iff. Qed.

Definition wf m := msorted TOZ m /\ (forall k v, In (k, v) m -> 1 <= k <= INT_MAX).

Lemma last_max m k v l : msorted TOZ m -> rev m = (k, v) :: l -> m = rev l ++ [(k, v)] /\ forall k' v', In (k', v') m -> k' <= k.
Proof.
  intros HS E. assert (M : m = rev l ++ [(k, v)]).
  { rewrite <- (rev_involutive m), E. reflexivity. }
  split; auto. intros k' v' H. subst m. apply in_app_or in H. destruct H as [H|[H|[]]].
  - clear E. induction (rev l) as [|(k0, v0) t IH]; [destruct H|]. simpl in HS. destruct HS as [H1 H2].
    destruct H as [H|H]; [|apply IH; auto]. inversion H; subst.
    assert (HK : klt TOZ k' k) by (apply (H1 k v); apply in_or_app; right; left; auto). apply (proj1 (klt_Z _ _)) in HK. lia.
  - inversion H; lia.
Qed.

Lemma newId_fresh m id : msorted TOZ m -> newId m = Ret id -> forall k v, In (k, v) m -> k < id.
Proof.
  intros HS H k v Hin. unfold newId in H. destruct (rev m) as [|(k0, v0) l] eqn:E.
  - apply (f_equal (@rev _)) in E. rewrite rev_involutive in E. simpl in E. subst. destruct Hin.
  - destruct (last_max m k0 v0 l HS E) as [_ HM]. destruct (Z.eqb k0 INT_MAX); [discriminate|].
    injection H as <-. apply HM in Hin. lia.
Qed.

Lemma add_spec m x m' id : wf m -> add m x = Ret (m', id) ->
  m' = m ++ [(id, x)] /\ wf m' /\ (forall k v, In (k, v) m -> k < id).
Proof.
  intros [HS HP] H. unfold add in H. destruct (newId m) as [i| |] eqn:E; simpl in H; try discriminate.
  injection H as <- <-. pose proof (newId_fresh m i HS E) as F.
  assert (M : mput TOZ i x m = m ++ [(i, x)]).
  { apply mput_last. intros k' v' Hin. apply (proj2 (klt_Z _ _)). eapply F; eauto. }
  split; auto. split; auto. split.
  - apply mput_sorted; auto.
  - intros k v Hin. rewrite M in Hin. apply in_app_or in Hin. destruct Hin as [Hin|[Hin|[]]]; [eapply HP; eauto|].
    inversion Hin; subst. unfold newId in E. destruct (rev m) as [|(k0, v0) l] eqn:E'.
    + injection E as <-. unfold INT_MAX. lia.
    + destruct (Z.eqb_spec k0 INT_MAX); [discriminate|]. injection E as <-.
      assert (In (k0, v0) m) by (apply in_rev; rewrite E'; left; auto). apply HP in H. lia.
Qed.

Lemma remove_spec m id : msorted TOZ m -> remove m id = filter (fun p => negb (Z.eqb id (fst p))) m.
Proof.
  intro HS. unfold remove.
  assert (KE : forall a b, keqb TOZ a b = Z.eqb a b).
  { intros a b. destruct (keqb_spec TOZ a b); destruct (Z.eqb_spec a b); auto; contradiction. }
  assert (E : mdel TOZ id m = filter (fun p => negb (Z.eqb id (fst p))) m).
  { rewrite mdel_filter by auto. apply filter_ext. intro p. rewrite KE. auto. }
  rewrite <- E. destruct (mfind TOZ id m) eqn:F; auto. rewrite mdel_filter by auto.
  symmetry. assert (forall p, In p m -> negb (keqb TOZ id (fst p)) = true).
  { intros (k, v) Hin. simpl. rewrite KE. destruct (Z.eqb_spec id k); auto. subst.
    exfalso. rewrite mfind_None in F by auto. eapply F; eauto. }
  clear -H. induction m; simpl; auto. rewrite H by (left; auto). rewrite IHm; auto. intros; apply H; right; auto.
Qed.
Lemma remove_wf m id : wf m -> wf (remove m id).
Proof.
  intros [HS HP]. rewrite remove_spec by auto. split; [apply mfilter_sorted; auto|].
  intros k v H. apply filter_In in H. apply (HP k v). tauto.
Qed.

(** live of an extended trace *)
Lemma live_app_add tr id (x : T) : (forall e, In e tr -> True) ->
  live (tr ++ [EAdd id x]) = live tr ++ [(id, x)].
Proof.
  intros _. induction tr as [|e tr IH]; simpl; auto. destruct e; auto.
  rewrite existsb_app. simpl. rewrite orb_false_r. destruct (existsb (cancels id0) tr); auto. rewrite IH. auto.
Qed.
Lemma live_app_remove tr id : live (tr ++ [@ERemove T id]) = filter (fun p => negb (Z.eqb id (fst p))) (live tr).
Proof.
  induction tr as [|e tr IH]; simpl; auto. destruct e; auto.
  rewrite existsb_app. simpl. rewrite orb_false_r.
  destruct (existsb (cancels id0) tr); simpl; auto. destruct (Z.eqb id id0); simpl; auto. rewrite IH. auto.
Qed.
Lemma live_app_clear tr : live (tr ++ [@EClear T]) = [].
Proof.
  induction tr as [|e tr IH]; simpl; auto. destruct e; auto.
  rewrite existsb_app. simpl. rewrite !orb_true_r. auto.
Qed.

Lemma ofold_inv {A S} (P : S -> Prop) (f : S -> A -> Outcome S) l s s' :
  P s -> (forall s a s', P s -> f s a = Ret s' -> P s') -> ofold f l s = Ret s' -> P s'.
Proof.
  revert s. induction l; simpl; intros s H0 HS H.
  - injection H as <-. auto.
  - destruct (f s a) eqn:E; simpl in H; try discriminate. exact (IHl _ (HS _ _ _ H0 E) HS H).
Qed.

Lemma history_ok ops m tr : @history T ops = Ret (m, tr) -> wf m /\ m = live tr.
Proof.
  intro H. apply (ofold_inv (fun s : elements T * list (event T) => wf (fst s) /\ fst s = live (snd s)) step ops ([],[]) (m, tr)) in H; auto.
  - simpl. repeat split; auto; simpl in *; contradiction.
  - intros [m0 tr0] o [m1 tr1] [HW HL] HS. simpl in *. destruct o as [x|id|]; simpl in HS.
    + destruct (add m0 x) as [[m2 id]| |] eqn:E; simpl in HS; try discriminate. injection HS as <- <-.
      destruct (add_spec m0 x m2 id HW E) as (M & HW' & _). split; auto. rewrite live_app_add by auto. congruence.
    + injection HS as <- <-. split; [apply remove_wf; auto|]. rewrite live_app_remove, <- HL. apply remove_spec. apply HW.
    + injection HS as <- <-. rewrite live_app_clear. repeat split; auto; simpl in *; contradiction.
Qed.

(** ids do not exceed the number of subscriptions, so no overflow below INT_MAX subscriptions *)
Lemma history_total_gen ops m tr : wf m -> (forall k v, In (k, v) m -> k <= Z.of_nat (length (filter is_add tr))) ->
  Z.of_nat (length (filter is_add tr)) + Z.of_nat (length (filter is_add_op ops)) < INT_MAX ->
  exists s, ofold (@step T) ops (m, tr) = Ret s.
Proof.
  revert m tr. induction ops as [|o ops IH]; intros m tr HW HB HN; simpl; [eauto|].
  destruct o as [x|id|]; simpl in *.
  - unfold add, newId. destruct (rev m) as [|(k, v) l] eqn:E.
    + simpl. assert (m = []). { rewrite <- (rev_involutive m), E. auto. } subst. simpl.
      apply IH.
      * split; [simpl; repeat split; intros; tauto|]. intros k v [H|[]]. inversion H; subst. unfold INT_MAX; lia.
      * intros k v [H|[]]. inversion H; subst. rewrite filter_app, app_length. simpl. lia.
      * rewrite filter_app, app_length. simpl. lia.
    + assert (In (k, v) m) by (apply in_rev; rewrite E; left; auto). apply HB in H.
      destruct (Z.eqb_spec k INT_MAX); [lia|]. cbn [obind fst snd].
      destruct (add_spec m x (mput TOZ (k + 1) x m) (k + 1) HW) as (M & HW' & _).
      { unfold add, newId. rewrite E. destruct (Z.eqb_spec k INT_MAX); [lia|]. reflexivity. }
      apply IH; auto.
      * intros k' v' Hin. rewrite M in Hin. rewrite filter_app, app_length. simpl.
        apply in_app_or in Hin. destruct Hin as [Hin|[Hin|[]]]; [apply HB in Hin; lia|]. inversion Hin; subst. lia.
      * rewrite filter_app, app_length. simpl. lia.
  - apply IH.
    + apply remove_wf; auto.
    + intros k v Hin. rewrite filter_app, app_length. simpl. rewrite remove_spec in Hin by apply HW. apply filter_In in Hin.
      destruct Hin as [Hin _]. apply HB in Hin. lia.
    + rewrite filter_app, app_length. simpl. lia.
  - apply IH.
    + split; simpl; auto; intros; tauto.
    + simpl; tauto.
    + rewrite filter_app, app_length. simpl. lia.
Qed.
Lemma history_total ops : Z.of_nat (length (filter is_add_op ops)) < INT_MAX -> exists s, @history T ops = Ret s.
Proof.
  intro H. apply history_total_gen; simpl; auto; try lia. split; simpl; auto; intros; tauto.
Qed.

Lemma add_id_fresh ops m tr x m' id : history ops = Ret (m, tr) -> add m x = Ret (m', id) ->
  ~ In id (map fst (live tr)) /\ m' = live tr ++ [(id, x)].
Proof.
  intros H HA. apply history_ok in H. destruct H as [HW ->]. destruct (add_spec _ x m' id HW HA) as (M & _ & F).
  split; auto. intro Hin. apply in_map_iff in Hin. destruct Hin as ((k, v) & E & Hin). simpl in E. subst.
  apply F in Hin. lia.
Qed.
Lemma remove_only ops m tr id : history ops = Ret (m, tr) ->
  (forall k x, In (k, x) (remove m id) <-> In (k, x) (live tr) /\ k <> id) /\ NoDup (map fst (live tr)).
Proof.
  intro H. apply history_ok in H. destruct H as [[HS HP] ->]. split; [|eapply msorted_NoDup; eauto].
  intros k x. rewrite remove_spec by auto. rewrite filter_In. simpl.
  destruct (Z.eqb_spec id k); simpl; intuition (try congruence; try discriminate).
Qed.

Lemma run_prog_restores p : forall m m', wf m -> run_prog p m = Ret m' -> m' = m.
Proof.
  induction p; intros m m' HW H; simpl in H.
  - congruence.
  - unfold scoped_new in H. destruct (add m x) as [[m1 id]| |] eqn:E; simpl in H; try discriminate.
    destruct (add_spec m x m1 id HW E) as (M & HW1 & F).
    destruct (run_prog p m1) as [m2| |] eqn:E2; simpl in H; try discriminate. injection H as <-.
    apply IHp in E2; auto. subst m2. unfold scoped_finish.
    assert (1 <= id). { destruct HW1 as [_ HP]. apply (HP id x). rewrite M. apply in_or_app; right; left; auto. }
    destruct (Z.eqb_spec id (-1)); [lia|]. simpl. rewrite remove_spec by apply HW1.
    rewrite M, filter_app. simpl. rewrite Z.eqb_refl. simpl. rewrite app_nil_r.
    assert (forall p, In p m -> negb (Z.eqb id (fst p)) = true).
    { intros (k, v) Hin. simpl. apply F in Hin. destruct (Z.eqb_spec id k); auto. lia. }
    clear -H0. induction m; simpl; auto. rewrite H0 by (left; auto). f_equal. apply IHm. intros; apply H0; right; auto.
  - destruct (run_prog p1 m) as [m1| |] eqn:E; simpl in H; try discriminate.
    apply IHp1 in E; auto. subst. eauto.
Qed.
End F.

Section C.
Context {W : Type}.
Lemma notify_ok ops m tr (w : W) : history ops = Ret (m, tr) ->
  notify m w = fold_left (fun w cb => cb w) (map snd (live tr)) w.
Proof.
  intro H. apply history_ok in H. destruct H as [_ ->]. unfold notify.
  generalize (live tr). intro l. revert w. induction l; simpl; auto.
Qed.
Lemma fold_respond (m : elements (W -> W * bool)) w r :
  fold_left (fun st p => let '(w, result) := st in let '(w', b) := snd p w in (w', b || result)) m (w, r) =
  (fst (respond (map snd m) w), orb r (existsb (fun b => b) (snd (respond (map snd m) w)))).
Proof.
  revert w r. induction m as [|(k, c) m IH]; intros w r; simpl; [rewrite orb_false_r; auto|].
  destruct (c w) as [w' b]. rewrite IH. destruct (respond (map snd m) w') as [w2 bs]. simpl.
  destruct b, r; simpl; auto.
Qed.
Lemma tnotify_ok ops m tr (w : W) : history ops = Ret (m, tr) ->
  tnotify m w = (fst (respond (map snd (live tr)) w), existsb (fun b => b) (snd (respond (map snd (live tr)) w))).
Proof.
  intro H. apply history_ok in H. destruct H as [_ ->]. unfold tnotify. rewrite fold_respond. auto.
Qed.
End C.

(** ** reentrant notification *)
Section R.
Context {W C : Type}.
Variable call : C -> elements C * W -> elements C * W.
Lemma next_key_app (m1 : elements C) (k : Z) (c : C) (m2 : elements C) : msorted TOZ (m1 ++ (k, c) :: m2) ->
  next_key k (m1 ++ (k, c) :: m2) = match m2 with [] => None | p :: _ => Some p end.
Proof.
  induction m1 as [|(k0, c0) t IH]; simpl; intros [H1 H2].
  - rewrite Z.ltb_irrefl. destruct m2 as [|(k', c') t]; simpl; auto.
    assert (klt TOZ k k') by (apply (H1 k' c'); left; auto). apply (proj1 (klt_Z _ _)) in H. apply Z.ltb_lt in H. rewrite H. auto.
  - assert (klt TOZ k0 k) by (apply (H1 k c); apply in_or_app; right; left; auto). apply (proj1 (klt_Z _ _)) in H.
    destruct (Z.ltb_spec k k0); [lia|]. apply IH; auto.
Qed.
(** callbacks that leave the list alone: the plain loop *)
Lemma rnotify_plain m w : msorted TOZ m -> (forall c w', In c (map snd m) -> fst (call c (m, w')) = m) ->
  rnotify call (m, w) (Ret (m, fold_left (fun w c => snd (call c (m, w))) (map snd m) w)).
Proof.
  intros HS HC. destruct m as [|(k, c) t] eqn:EM. { apply rn_empty. auto. }
  eapply rn_start; [reflexivity|]. rewrite <- EM in *.
  assert (G : forall m2 m1 k c w, m = m1 ++ (k, c) :: m2 ->
     rnotify_at call k c (m, w) (Ret (m, fold_left (fun w c => snd (call c (m, w))) (c :: map snd m2) w))).
  { clear k c t EM w. induction m2 as [|(k', c') t IH]; intros m1 k c w E.
    - assert (F : fst (call c (m, w)) = m). { apply HC. rewrite E, map_app. apply in_or_app. right. left. auto. }
      replace (Ret (m, fold_left (fun w c => snd (call c (m, w))) (c :: map snd []) w)) with (Ret (call c (m, w)))
        by (simpl; rewrite <- F at 2; rewrite <- surjective_pairing; auto).
      apply ra_end; rewrite F.
      + intro N. rewrite mfind_None in N by auto. apply (N c). rewrite E. apply in_or_app; right; left; auto.
      + rewrite E. rewrite E in HS. apply (next_key_app m1 k c []); auto.
    - assert (F : fst (call c (m, w)) = m). { apply HC. rewrite E, map_app. apply in_or_app. right. left. auto. }
      eapply ra_next.
      + rewrite F. intro N. rewrite mfind_None in N by auto. apply (N c). rewrite E. apply in_or_app; right; left; auto.
      + rewrite F. rewrite E. rewrite E in HS. apply (next_key_app m1 k c ((k', c') :: t)); auto.
      + rewrite (surjective_pairing (call c (m, w))), F. simpl.
        change (fold_left (fun w c => snd (call c (m, w))) (map snd t) (snd (call c' (m, snd (call c (m, w))))))
          with (fold_left (fun w c => snd (call c (m, w))) (c' :: map snd t) (snd (call c (m, w)))).
        apply (IH (m1 ++ [(k, c)])). rewrite E, <- app_assoc. auto. }
  rewrite EM at 3. simpl. apply (G t []). auto.
Qed.
(** a callback that unsubscribes itself while being called: undefined behaviour *)
Lemma rnotify_self_remove m w k c t : m = (k, c) :: t -> msorted TOZ m ->
  (forall w', fst (call c (m, w')) = remove m k) -> rnotify call (m, w) UB.
Proof.
  intros E HS H. subst. eapply rn_start; [reflexivity|]. apply ra_ub. rewrite H.
  rewrite remove_spec by auto. simpl. rewrite Z.eqb_refl. simpl. apply mfind_None.
  - apply mfilter_sorted. apply HS.
  - intros v Hin. apply filter_In in Hin. destruct Hin as [_ Hin]. simpl in Hin. rewrite Z.eqb_refl in Hin. discriminate.
Qed.
End R.

Lemma scoped_move_ok (T : Type) ops (m : elements T) tr id : history ops = Ret (m, tr) -> id <> (-1)%Z ->
  fst (scoped_finish m (snd (scoped_move id))) = live tr /\
  (forall k x, In (k, x) (fst (scoped_finish m (fst (scoped_move id)))) <-> In (k, x) (live tr) /\ k <> id).
Proof.
  intros H NE. split.
  - destruct (history_ok ops m tr H) as [_ ->]. reflexivity.
  - intros k x. unfold scoped_finish, scoped_move. simpl fst. assert (E : Z.eqb id (-1) = false) by (apply Z.eqb_neq; assumption). rewrite E. simpl.
    destruct (remove_only ops m tr id H) as [R _]. apply R.
Qed.
