(** SMap.v - std::map as an association list sorted by key.  Models no particular source file; used by all
    models of code that stores data in std::map. *)
From Coq Require Import List Arith Lia ZArith QArith Qcanon Bool String Ascii.
Require Import Verif.Base Verif.BaseFacts.
Import ListNotations.

(** A strict total order given by a comparison function (std::less). *)
Record TO (K : Type) : Type := mkTO {
  cmp : K -> K -> comparison;
  cmp_eq : forall a b, cmp a b = Eq <-> a = b;
  cmp_opp : forall a b, cmp b a = CompOpp (cmp a b);
  cmp_lt : forall a b c, cmp a b = Lt -> cmp b c = Lt -> cmp a c = Lt
}.
Arguments cmp {K} _ _ _.
Arguments cmp_eq {K} _ _ _.
Arguments cmp_opp {K} _ _ _.
Arguments cmp_lt {K} _ _ _ _ _ _.

Section Map.
Context {K V : Type} (O : TO K).

(** m.find(k) *)
Fixpoint mfind (k : K) (m : list (K * V)) : option V :=
  match m with
  | [] => None
  | (k', v) :: t => match cmp O k k' with Eq => Some v | Lt => None | Gt => mfind k t end
  end.
(** m[k] = v *)
Fixpoint mput (k : K) (v : V) (m : list (K * V)) : list (K * V) :=
  match m with
  | [] => [(k, v)]
  | (k', v') :: t => match cmp O k k' with
                     | Eq => (k, v) :: t
                     | Lt => (k, v) :: m
                     | Gt => (k', v') :: mput k v t
                     end
  end.
(** m.erase(k) *)
Fixpoint mdel (k : K) (m : list (K * V)) : list (K * V) :=
  match m with
  | [] => []
  | (k', v') :: t => match cmp O k k' with Eq => t | Lt => m | Gt => (k', v') :: mdel k t end
  end.

Definition klt (a b : K) : Prop := cmp O a b = Lt.
Fixpoint msorted (m : list (K * V)) : Prop :=
  match m with
  | [] => True
  | (k, _) :: t => (forall k' v', In (k', v') t -> klt k k') /\ msorted t
  end.

Lemma cmp_refl k : cmp O k k = Eq.
Proof. apply cmp_eq; auto. Qed.
Lemma klt_irrefl k : ~ klt k k.
Proof. unfold klt. rewrite cmp_refl. discriminate. Qed.
Lemma klt_trans a b c : klt a b -> klt b c -> klt a c.
Proof. apply cmp_lt. Qed.
Lemma cmp_gt a b : cmp O a b = Gt <-> klt b a.
Proof. unfold klt. rewrite (cmp_opp O a b). destruct (cmp O a b); simpl; split; congruence. Qed.
Lemma klt_cmp a b : klt a b -> cmp O a b = Lt.
Proof. auto. Qed.
Definition keq_dec (a b : K) : {a = b} + {a <> b}.
Proof.
  destruct (cmp O a b) eqn:E.
  - left. apply (cmp_eq O); auto.
  - right. intros ->. rewrite cmp_refl in E. discriminate.
  - right. intros ->. rewrite cmp_refl in E. discriminate.
Defined.
Definition keqb (a b : K) : bool := match cmp O a b with Eq => true | _ => false end.
Lemma keqb_spec a b : reflect (a = b) (keqb a b).
Proof.
  unfold keqb. destruct (cmp O a b) eqn:E; constructor.
  - apply (cmp_eq O); auto.
  - intros ->. rewrite cmp_refl in E. discriminate.
  - intros ->. rewrite cmp_refl in E. discriminate.
Qed.

Lemma mfind_In m k v : msorted m -> (mfind k m = Some v <-> In (k, v) m).
Proof.
  induction m as [|(k', v') t IH]; simpl; [split; [discriminate|tauto]|].
  intros [H1 H2]. destruct (cmp O k k') eqn:E.
  - apply (cmp_eq O) in E. subst. split.
    + intro E; inversion E; auto.
    + intros [E|E]; [congruence|]. exfalso. apply (klt_irrefl k'), (H1 _ _ E).
  - split; [discriminate|]. intros [E'|E'].
    + inversion E'; subst. rewrite cmp_refl in E. discriminate.
    + exfalso. apply (klt_irrefl k). eapply klt_trans; [exact E|]. eapply H1; eauto.
  - rewrite IH by auto. split; auto. intros [E'|E']; auto. inversion E'; subst. rewrite cmp_refl in E; discriminate.
Qed.
Lemma mfind_None m k : msorted m -> (mfind k m = None <-> forall v, ~ In (k, v) m).
Proof.
  intro H. destruct (mfind k m) eqn:E.
  - split; [discriminate|]. intro N. apply mfind_In in E; auto. exfalso. eapply N; eauto.
  - split; auto. intros _ v Hv. apply mfind_In in Hv; auto. congruence.
Qed.

Lemma mput_In m k v k' v' : In (k', v') (mput k v m) -> (k' = k /\ v' = v) \/ In (k', v') m.
Proof.
  induction m as [|(k0, v0) t IH]; simpl.
  - intros [E|[]]. inversion E; auto.
  - destruct (cmp O k k0); simpl; intros [E|E]; try (inversion E; subst; tauto); try tauto.
Qed.
Lemma mput_sorted m k v : msorted m -> msorted (mput k v m).
Proof.
  induction m as [|(k0, v0) t IH]; simpl; [intros; repeat split; tauto|].
  intros [H1 H2]. destruct (cmp O k k0) eqn:E; simpl.
  - apply (cmp_eq O) in E. subst. split; auto.
  - split; [|split; auto]. intros k' v' [E'|E'].
    + inversion E'; subst; auto.
    + eapply klt_trans; [exact E|eauto].
  - split; auto. intros k' v' H'. apply mput_In in H'. destruct H' as [[-> ->]|H']; [apply cmp_gt; auto|eauto].
Qed.
Lemma mfind_put m k v k' : msorted m -> mfind k' (mput k v m) = if keqb k' k then Some v else mfind k' m.
Proof.
  intro HS. destruct (keqb_spec k' k) as [->|Hne].
  - apply mfind_In; [apply mput_sorted; auto|]. clear HS. induction m as [|(k0, v0) t IH]; simpl; auto.
    destruct (cmp O k k0); simpl; auto.
  - induction m as [|(k0, v0) t IH]; simpl.
    + destruct (cmp O k' k) eqn:E; auto. apply (cmp_eq O) in E. contradiction.
    + destruct HS as [H1 H2]. destruct (cmp O k k0) eqn:E; simpl.
      * apply (cmp_eq O) in E. subst k0. destruct (cmp O k' k) eqn:E'; auto. apply (cmp_eq O) in E'. contradiction.
      * destruct (cmp O k' k) eqn:E'; auto.
        -- apply (cmp_eq O) in E'. contradiction.
        -- assert (klt k' k0) by (eapply klt_trans; eauto). unfold klt in *. rewrite H. auto.
      * destruct (cmp O k' k0); auto.
Qed.
Lemma mdel_In m k k' v' : In (k', v') (mdel k m) -> In (k', v') m.
Proof.
  induction m as [|(k0, v0) t IH]; simpl; auto. destruct (cmp O k k0); simpl; tauto.
Qed.
Lemma mdel_sorted m k : msorted m -> msorted (mdel k m).
Proof.
  induction m as [|(k0, v0) t IH]; simpl; auto. intros [H1 H2]. destruct (cmp O k k0); simpl; auto.
  split; auto. intros k' v' H'. apply mdel_In in H'. eauto.
Qed.
Lemma mdel_filter m k : msorted m -> mdel k m = filter (fun p => negb (keqb k (fst p))) m.
Proof.
  induction m as [|(k0, v0) t IH]; simpl; auto. intros [H1 H2].
  assert (FT : forall k1, (k1 = k0 \/ klt k1 k0) -> filter (fun p : K * V => negb (keqb k1 (fst p))) t = t).
  { intros k1 Hk1. assert (forall p, In p t -> negb (keqb k1 (fst p)) = true).
    { intros (k2, v2) Hp. simpl. destruct (keqb_spec k1 k2); auto. subst. apply H1 in Hp. exfalso.
      destruct Hk1 as [->|Hk1]; [apply (klt_irrefl _ Hp)|apply (klt_irrefl k2); eapply klt_trans; eauto]. }
    clear -H. induction t as [|p t IH]; simpl; auto. rewrite H by (left; auto). rewrite IH; auto. intros; apply H; right; auto. }
  unfold keqb at 1. destruct (cmp O k k0) eqn:E; simpl.
  - apply (cmp_eq O) in E. subst. symmetry. apply FT; auto.
  - f_equal. symmetry. apply FT; auto.
  - f_equal. auto.
Qed.
Lemma mfind_del m k k' : msorted m -> mfind k' (mdel k m) = if keqb k' k then None else mfind k' m.
Proof.
  intro HS. destruct (keqb_spec k' k) as [->|Hne].
  - apply mfind_None; [apply mdel_sorted; auto|]. intros v H. rewrite mdel_filter in H by auto.
    apply filter_In in H. destruct H as [_ H]. simpl in H. unfold keqb in H. rewrite cmp_refl in H. discriminate.
  - destruct (mfind k' m) eqn:E.
    + apply mfind_In; [apply mdel_sorted; auto|]. apply mfind_In in E; auto. rewrite mdel_filter by auto.
      apply filter_In. split; auto. simpl. destruct (keqb_spec k k'); auto; try congruence.
    + apply mfind_None; [apply mdel_sorted; auto|]. intros v H. apply mdel_In in H.
      rewrite mfind_None in E by auto. eapply E; eauto.
Qed.

(** two sorted maps with the same lookups are equal *)
Lemma msorted_ext m1 m2 : msorted m1 -> msorted m2 -> (forall k, mfind k m1 = mfind k m2) -> m1 = m2.
Proof.
  revert m2. induction m1 as [|(k1, v1) t1 IH]; intros m2 S1 S2 H.
  - destruct m2 as [|(k2, v2) t2]; auto. specialize (H k2). simpl in H. rewrite cmp_refl in H. discriminate.
  - destruct m2 as [|(k2, v2) t2]. { specialize (H k1). simpl in H. rewrite cmp_refl in H. discriminate. }
    assert (k1 = k2).
    { pose proof (H k1) as A. pose proof (H k2) as B. simpl in A, B. rewrite cmp_refl in A, B.
      destruct (cmp O k1 k2) eqn:E; try discriminate. apply (cmp_eq O); auto.
      rewrite (cmp_opp O k1 k2), E in B. simpl in B. discriminate. }
    subst k2. pose proof (H k1) as A. simpl in A. rewrite cmp_refl in A. inversion A; subst v2. f_equal.
    destruct S1 as [S1 S1']. destruct S2 as [S2 S2']. apply IH; auto. intro k.
    destruct (keq_dec k k1) as [->|Hne].
    + transitivity (@None V); [|symmetry]; apply mfind_None; auto; intros v Hv.
      * apply S1 in Hv. apply (klt_irrefl _ Hv). * apply S2 in Hv. apply (klt_irrefl _ Hv).
    + specialize (H k). simpl in H. destruct (cmp O k k1) eqn:E; auto.
      * apply (cmp_eq O) in E. contradiction.
      * transitivity (@None V); [|symmetry]; apply mfind_None; auto; intros v Hv.
        -- apply S1 in Hv. apply (klt_irrefl k). eapply klt_trans; eauto.
        -- apply S2 in Hv. apply (klt_irrefl k). eapply klt_trans; eauto.
Qed.

Lemma msorted_NoDup m : msorted m -> NoDup (map fst m).
Proof.
  induction m as [|(k, v) t IH]; simpl; [constructor|]. intros [H1 H2]. constructor; auto.
  intro H. apply in_map_iff in H. destruct H as ((k', v') & E & H). simpl in E. subst. apply H1 in H. apply (klt_irrefl _ H).
Qed.
Lemma msorted_app m1 m2 : msorted m1 -> msorted m2 ->
  (forall k v k' v', In (k, v) m1 -> In (k', v') m2 -> klt k k') -> msorted (m1 ++ m2).
Proof.
  induction m1 as [|(k, v) t IH]; simpl; auto. intros [H1 H2] S2 H. split.
  - intros k' v' Hin. apply in_app_or in Hin. destruct Hin; eauto.
  - apply IH; auto. intros; eapply H; eauto.
Qed.
Lemma mput_last m k v : (forall k' v', In (k', v') m -> klt k' k) -> mput k v m = m ++ [(k, v)].
Proof.
  induction m as [|(k0, v0) t IH]; simpl; auto. intro H.
  assert (E : cmp O k k0 = Gt). { apply cmp_gt. apply (H k0 v0); auto. }
  rewrite E, IH; auto. intros; eapply H; eauto.
Qed.
Lemma mfilter_sorted f m : msorted m -> msorted (filter f m).
Proof.
  induction m as [|(k, v) t IH]; simpl; auto. intros [H1 H2]. destruct (f (k, v)); simpl; auto.
  split; auto. intros k' v' H. apply filter_In in H. destruct H. eauto.
Qed.
Lemma mfind_filter f m k : msorted m ->
  mfind k (filter f m) = match mfind k m with Some v => if f (k, v) then Some v else None | None => None end.
Proof.
  intro HS. destruct (mfind k m) eqn:E.
  - apply mfind_In in E; auto. destruct (f (k, v)) eqn:F.
    + apply mfind_In; [apply mfilter_sorted; auto|]. apply filter_In; auto.
    + apply mfind_None; [apply mfilter_sorted; auto|]. intros v' H. apply filter_In in H. destruct H as [H F'].
      apply mfind_In in H; auto. apply mfind_In in E; auto. rewrite H in E. inversion E; subst. congruence.
  - apply mfind_None; [apply mfilter_sorted; auto|]. intros v H. apply filter_In in H. destruct H as [H _].
    rewrite mfind_None in E by auto. eapply E; eauto.
Qed.
End Map.

Lemma msorted_map {K V W} (O : TO K) (f : K -> V -> W) m : msorted O m ->
  msorted O (map (fun p => (fst p, f (fst p) (snd p))) m).
Proof.
  induction m as [|(k, v) t IH]; simpl; auto. intros [H1 H2]. split; auto.
  intros k' v' H. apply in_map_iff in H. destruct H as ((k0, v0) & E & H). inversion E; subst. eapply H1; eauto.
Qed.
Lemma mfind_map {K V W} (O : TO K) (f : K -> V -> W) m k :
  mfind O k (map (fun p => (fst p, f (fst p) (snd p))) m) = option_map (f k) (mfind O k m).
Proof.
  induction m as [|(k0, v) t IH]; simpl; auto. destruct (cmp O k k0) eqn:E; auto. apply (cmp_eq O) in E. subst. auto.
Qed.

(** * Orders *)
Definition TOnat : TO nat.
Proof.
  refine (mkTO nat Nat.compare _ _ _).
  - intros. apply Nat.compare_eq_iff.
  - intros. apply Nat.compare_antisym.
  - intros a b c. rewrite !Nat.compare_lt_iff. lia.
Defined.
Definition TOZ : TO Z.
Proof.
  refine (mkTO Z Z.compare _ _ _).
  - intros. apply Z.compare_eq_iff.
  - intros. apply Z.compare_antisym.
  - intros a b c. rewrite !Z.compare_lt_iff. lia.
Defined.
(** lexicographic order on pairs *)
Definition pair_cmp {A B} (OA : TO A) (OB : TO B) (x y : A * B) : comparison :=
  match cmp OA (fst x) (fst y) with Eq => cmp OB (snd x) (snd y) | c => c end.
Definition TOpair {A B} (OA : TO A) (OB : TO B) : TO (A * B).
Proof.
  refine (mkTO (A * B) (pair_cmp OA OB) _ _ _); unfold pair_cmp.
  - intros [a b] [c d]; simpl. destruct (cmp OA a c) eqn:E.
    + rewrite (cmp_eq OB). apply (cmp_eq OA) in E. subst. split; [intros ->; auto|intro H; inversion H; auto].
    + split; [discriminate|]. intro H; inversion H; subst. rewrite (cmp_refl OA) in E. discriminate.
    + split; [discriminate|]. intro H; inversion H; subst. rewrite (cmp_refl OA) in E. discriminate.
  - intros [a b] [c d]; simpl. rewrite (cmp_opp OA a c). destruct (cmp OA a c); simpl; auto. apply cmp_opp.
  - intros [a b] [c d] [e f]; simpl.
    destruct (cmp OA a c) eqn:E1; destruct (cmp OA c e) eqn:E2; intros H1 H2; try discriminate.
    + apply (cmp_eq OA) in E1. apply (cmp_eq OA) in E2. subst. rewrite (cmp_refl OA). eapply cmp_lt; eauto.
    + apply (cmp_eq OA) in E1. subst. rewrite E2. auto.
    + apply (cmp_eq OA) in E2. subst. rewrite E1. auto.
    + rewrite (cmp_lt OA a c e); auto.
Defined.
(** std::string: lexicographic by character code (unsigned char) *)
Definition ascii_cmp (a b : ascii) : comparison := N.compare (N_of_ascii a) (N_of_ascii b).
Fixpoint str_cmp (a b : string) : comparison :=
  match a, b with
  | EmptyString, EmptyString => Eq
  | EmptyString, _ => Lt
  | _, EmptyString => Gt
  | String x s, String y t => match ascii_cmp x y with Eq => str_cmp s t | c => c end
  end.
Lemma ascii_cmp_eq a b : ascii_cmp a b = Eq <-> a = b.
Proof.
  unfold ascii_cmp. rewrite N.compare_eq_iff. split; [|intros ->; auto].
  intro H. rewrite <- (ascii_N_embedding a), <- (ascii_N_embedding b), H. auto.
Qed.
Definition TOstr : TO string.
Proof.
  refine (mkTO string str_cmp _ _ _).
  - induction a as [|x s IH]; intros [|y t]; simpl; try (split; [discriminate|discriminate]); [split; auto|].
    destruct (ascii_cmp x y) eqn:E.
    + apply ascii_cmp_eq in E. subst. rewrite IH. split; [intros ->; auto|intro H; inversion H; auto].
    + split; [discriminate|]. intro H; inversion H; subst. assert (ascii_cmp y y = Eq) by (apply ascii_cmp_eq; auto). congruence.
    + split; [discriminate|]. intro H; inversion H; subst. assert (ascii_cmp y y = Eq) by (apply ascii_cmp_eq; auto). congruence.
  - induction a as [|x s IH]; intros [|y t]; simpl; auto.
    unfold ascii_cmp. rewrite (N.compare_antisym (N_of_ascii x)). destruct (N.compare (N_of_ascii x) (N_of_ascii y)); simpl; auto.
  - induction a as [|x s IH]; intros [|y t] [|z u]; simpl; try discriminate; auto.
    destruct (ascii_cmp x y) eqn:E1; destruct (ascii_cmp y z) eqn:E2; intros H1 H2; try discriminate.
    + apply ascii_cmp_eq in E1. apply ascii_cmp_eq in E2. subst.
      replace (ascii_cmp z z) with Eq by (symmetry; apply ascii_cmp_eq; auto). eauto.
    + apply ascii_cmp_eq in E1. subst. rewrite E2. auto.
    + apply ascii_cmp_eq in E2. subst. rewrite E1. auto.
    + unfold ascii_cmp in *. rewrite N.compare_lt_iff in *.
      assert (E : (N_of_ascii x ?= N_of_ascii z)%N = Lt) by (apply N.compare_lt_iff; lia). rewrite E. auto.
Defined.
(** double keys, exact arithmetic *)
Definition TOQc : TO Qc.
Proof.
  refine (mkTO Qc Qccompare _ _ _).
  - intros. unfold Qccompare. rewrite Qc_eq_this, Qeq_alt. tauto.
  - intros. unfold Qccompare. symmetry. apply Qcompare_antisym.
  - intros a b c. unfold Qccompare. rewrite <- !Qlt_alt. apply Qlt_trans.
Defined.
