(** MapFacts.v - proofs about vector mappings. *)
From Coq Require Import List Arith Bool Lia Permutation Sorted QArith Qcanon.
From Verif Require Import Base BaseFacts MapModel MapSpec.
Import ListNotations.
Local Open Scope nat_scope.

(** * Index normalization *)
Definition inc (l : list nat) : Prop := StronglySorted lt l.
Lemma insert_In a l x : In x (insert_ix a l) <-> x = a \/ In x l.
Proof. induction l as [|b t IH]; simpl; [intuition|]. destruct (a <=? b); simpl; [intuition|]. rewrite IH. intuition. Qed.
Lemma sort_In l x : In x (sort_ix l) <-> In x l.
Proof. induction l as [|a t IH]; simpl; [tauto|]. rewrite insert_In, IH. intuition. Qed.
Lemma insert_sorted a l : StronglySorted le l -> StronglySorted le (insert_ix a l).
Proof.
  induction l as [|b t IH]; simpl; intros S; [repeat constructor|]. inversion S as [|? ? S' F]; subst.
  destruct (Nat.leb_spec a b).
  - constructor; [assumption|]. constructor; [assumption|]. eapply Forall_impl; [|exact F]. simpl; lia.
  - constructor; [apply IH; assumption|]. apply Forall_forall. intros x I. apply insert_In in I as [->|I]; [lia|].
    rewrite Forall_forall in F. auto.
Qed.
Lemma sort_sorted l : StronglySorted le (sort_ix l).
Proof. induction l; simpl; [constructor|apply insert_sorted; assumption]. Qed.
Lemma unique_spec l : StronglySorted le l -> inc (unique_ix l) /\ (forall x, In x (unique_ix l) <-> In x l).
Proof.
  induction l as [|a t IH]; intros S; [split; [constructor|tauto]|]. inversion S as [|? ? S' F]; subst.
  destruct (IH S') as [I1 I2]. destruct t as [|b t']; [split; [repeat constructor|tauto]|].
  change (unique_ix (a :: b :: t')) with (if a =? b then unique_ix (b :: t') else a :: unique_ix (b :: t')).
  destruct (Nat.eqb_spec a b) as [->|D].
  - split; [assumption|]. intros x. rewrite I2. simpl. intuition.
  - split.
    + constructor; [assumption|]. apply Forall_forall. intros x I. apply I2 in I.
      inversion F as [|? ? L F']; subst. destruct I as [<-|I]; [lia|]. inversion S' as [|? ? _ G]; subst. rewrite Forall_forall in G. specialize (G x I). lia.
    + intros x. simpl. rewrite I2. simpl. tauto.
Qed.
Lemma normalized_spec l : inc (normalizedIndices l) /\ same_set (normalizedIndices l) l.
Proof.
  destruct (unique_spec _ (sort_sorted l)) as [A B]. split; [assumption|]. intros x. unfold normalizedIndices. rewrite B. apply sort_In.
Qed.
Lemma inc_ext a : forall b, inc a -> inc b -> same_set a b -> a = b.
Proof.
  induction a as [|x a IH]; intros b A B S.
  - destruct b as [|y b]; [reflexivity|]. destruct (proj2 (S y)). left; reflexivity.
  - destruct b as [|y b]; [destruct (proj1 (S x)); left; reflexivity|].
    inversion A as [|? ? A' FA]; inversion B as [|? ? B' FB]; subst. rewrite Forall_forall in FA, FB.
    assert (x = y).
    { destruct (proj1 (S x) (or_introl eq_refl)) as [->|I]; [reflexivity|].
      destruct (proj2 (S y) (or_introl eq_refl)) as [->|J]; [reflexivity|]. specialize (FA y J). specialize (FB x I). lia. }
    subst y. f_equal. apply IH; auto. intros i. split; intros I.
    + destruct (proj1 (S i) (or_intror I)) as [->|]; [specialize (FA i I); lia|assumption].
    + destruct (proj2 (S i) (or_intror I)) as [->|]; [specialize (FB i I); lia|assumption].
Qed.
Lemma same_set_sym a b : same_set a b -> same_set b a. Proof. intros S i. symmetry. apply S. Qed.

(** * Enabled indices *)
Definition en (ds : list nat) (is m : nat) : list nat := filter (fun i => negb (existsb (Nat.eqb i) ds)) (seq is m).
Lemma existsb_In i ds : existsb (Nat.eqb i) ds = true <-> In i ds.
Proof. rewrite existsb_exists. split; [intros [x [I E]]; apply Nat.eqb_eq in E; congruence|intros I; exists i; rewrite Nat.eqb_refl; auto]. Qed.
Lemma existsb_notIn i ds : existsb (Nat.eqb i) ds = false <-> ~ In i ds.
Proof. rewrite <- existsb_In. destruct (existsb _ _); split; congruence. Qed.
Lemma en_same a b is m : same_set a b -> en a is m = en b is m.
Proof.
  intros S. apply filter_ext. intros i. f_equal.
  destruct (existsb (Nat.eqb i) a) eqn:E.
  - symmetry. apply existsb_In, S, existsb_In. assumption.
  - symmetry. apply existsb_notIn. intros I. apply S, existsb_In in I. congruence.
Qed.
(** Dropping a disabled index below the window. *)
Lemma en_cons_lt d t is m : d < is -> en (d :: t) is m = en t is m.
Proof.
  intros L. apply filter_ext_in. intros i I. apply in_seq in I. simpl. destruct (Nat.eqb_spec i d); [lia|reflexivity].
Qed.
Lemma en_hit t is m : en (is :: t) is (S m) = en t (S is) m.
Proof. unfold en. cbn [seq filter existsb]. rewrite Nat.eqb_refl. simpl. apply (en_cons_lt is t (S is) m). lia. Qed.
Lemma en_miss ds is m : ~ In is ds -> en ds is (S m) = is :: en ds (S is) m.
Proof. intros H. unfold en. cbn [seq filter]. apply existsb_notIn in H. rewrite H. reflexivity. Qed.
Lemma en_length ds : forall is m, inc ds -> (forall d, In d ds -> is <= d < is + m) -> length (en ds is m) = m - length ds.
Proof.
  intros is m; revert ds is. induction m as [|m IH]; intros ds is S R.
  - reflexivity.
  - destruct ds as [|d t].
    + rewrite en_miss by (intros []). simpl. rewrite IH; [simpl; lia|constructor|intros ? []].
    + inversion S as [|? ? S' F]; subst. rewrite Forall_forall in F. destruct (Nat.eq_dec d is) as [->|D].
      * rewrite en_hit, IH; [simpl; lia|assumption|]. intros e I. specialize (F e I). specialize (R e (or_intror I)). lia.
      * rewrite en_miss.
        -- cbn [length]. rewrite IH; [|assumption|].
           ++ assert (L : length (d :: t) <= m); [|simpl in *; lia].
              assert (ND : NoDup (d :: t)). { clear -S. induction S; constructor; auto. rewrite Forall_forall in H. intros I. specialize (H a I). lia. }
              assert (IC : incl (d :: t) (seq (Datatypes.S is) m)).
              { intros e I. apply in_seq. pose proof (R e I). destruct I as [<-|I]; [lia|]. specialize (F e I). specialize (R d (or_introl eq_refl)). lia. }
              pose proof (NoDup_incl_length ND IC) as Q. rewrite seq_length in Q. exact Q.
           ++ intros e I. pose proof (R e I). destruct I as [<-|I]; [lia|]. specialize (F e I). specialize (R d (or_introl eq_refl)). lia.
        -- intros [E|I]; [congruence|]. specialize (F is I). specialize (R d (or_introl eq_refl)). lia.
Qed.

Section AnyNum.
Context {N : Num}.
Notation T := (nT N).
Notation vec := (list T).
Implicit Types (x src st : vec).

Lemma advance_lt d t is : d < is -> advance (d :: t) is = advance t is.
Proof. intros L. simpl. apply Nat.ltb_lt in L. rewrite L. reflexivity. Qed.
Lemma reduce_hit nn is t x : reduce_loop nn (is :: t) is x = reduce_loop nn t (S is) x.
Proof. destruct nn; [reflexivity|]. simpl. rewrite Nat.ltb_irrefl, Nat.eqb_refl. reflexivity. Qed.
Lemma reduce_loop_ok (d : T) x : forall m rest is, is + m = length x -> inc rest -> (forall e, In e rest -> is <= e < length x) ->
  reduce_loop (m - length rest) rest is x = Ret (pick d x (en rest is m)).
Proof.
  induction m as [|m IH]; intros rest is E S R.
  - reflexivity.
  - destruct rest as [|e t].
    + rewrite en_miss by (intros []). cbn [length]. rewrite Nat.sub_0_r. cbn [reduce_loop advance fst snd].
      rewrite (rdat_ok _ _ d) by lia. cbn [obind]. specialize (IH [] (Datatypes.S is)). cbn [length] in IH. rewrite Nat.sub_0_r in IH.
      rewrite IH; [reflexivity|lia|constructor|intros ? []].
    + inversion S as [|? ? S' F]; subst. rewrite Forall_forall in F. destruct (Nat.eq_dec e is) as [->|D].
      * rewrite reduce_hit, en_hit. change (Datatypes.S m - length (is :: t)) with (m - length t). apply IH; [lia|assumption|].
        intros e I. specialize (F e I). specialize (R e (or_intror I)). lia.
      * assert (NI : ~ In is (e :: t)). { intros [Q|I]; [congruence|]. specialize (F is I). specialize (R e (or_introl eq_refl)). lia. }
        assert (L : length (e :: t) <= m).
        { assert (ND : NoDup (e :: t)). { clear -S. induction S; constructor; auto. rewrite Forall_forall in H. intros I. specialize (H a I). lia. }
          assert (IC : incl (e :: t) (seq (Datatypes.S is) m)).
          { intros y I. apply in_seq. pose proof (R y I). destruct I as [<-|I]; [lia|]. specialize (F y I). specialize (R e (or_introl eq_refl)). lia. }
          pose proof (NoDup_incl_length ND IC) as Q. rewrite seq_length in Q. exact Q. }
        rewrite en_miss by assumption.
        replace (Datatypes.S m - length (e :: t)) with (Datatypes.S (m - length (e :: t))) by lia.
        cbn [reduce_loop]. pose proof (R e (or_introl eq_refl)) as Re.
        assert (A : advance (e :: t) is = (e :: t, is)).
        { simpl. destruct (Nat.ltb_spec e is); [lia|]. destruct (Nat.eqb_spec e is); [congruence|reflexivity]. }
        rewrite A. cbn [fst snd]. rewrite (rdat_ok _ _ d) by lia. cbn [obind]. rewrite IH; [reflexivity|lia|assumption|].
        intros y I. pose proof (R y I). destruct I as [<-|I]; [lia|]. specialize (F y I). lia.
Qed.
Lemma pick_all (d : T) x : pick d x (seq 0 (length x)) = x.
Proof. apply (list_ext d); unfold pick; [rewrite map_length, seq_length; reflexivity|]. intros i Hi. rewrite map_length, seq_length in Hi. rewrite nth_map_seq by assumption. reflexivity. Qed.
Lemma en_nil is m : en [] is m = seq is m.
Proof. revert is. induction m as [|m IH]; intros is; [reflexivity|]. rewrite en_miss by (intros []). rewrite IH. reflexivity. Qed.
Lemma reduce_ok (d : T) x ds : inc ds -> (forall e, In e ds -> e < length x) -> reduce x ds = Ret (pick d x (en ds 0 (length x))).
Proof.
  intros S R. unfold reduce. destruct ds as [|e t].
  - f_equal. rewrite en_nil. symmetry. apply pick_all.
  - destruct (Nat.ltb_spec (length x) (length (e :: t))) as [L|L].
    + exfalso. assert (ND : NoDup (e :: t)). { clear -S. induction S; constructor; auto. rewrite Forall_forall in H. intros I. specialize (H a I). lia. }
      assert (IC : incl (e :: t) (seq 0 (length x))). { intros y I. apply in_seq. specialize (R y I). lia. }
      pose proof (NoDup_incl_length ND IC) as Q. rewrite seq_length in Q. lia.
    + apply reduce_loop_ok; [reflexivity|assumption|]. intros y I. specialize (R y I). lia.
Qed.

(** Widening: length, frozen values, and the enabled components are the source. *)
Lemma drop_lt_id is ds : (forall e, In e ds -> is <= e) -> drop_lt is ds = ds.
Proof. destruct ds as [|e t]; [reflexivity|]. intros H. simpl. destruct (Nat.ltb_spec e is); [|reflexivity]. specialize (H e (or_introl eq_refl)). lia. Qed.
Lemma widen_loop_ok (d : T) st : forall m rest is src, inc rest -> (forall e, In e rest -> is <= e < is + m) ->
  (forall e, In e rest -> e < length st) -> length src = length (en rest is m) ->
  exists w, widen_loop m is rest src st = Ret w /\ length w = m /\
    (forall i, is <= i < is + m -> In i rest -> nth (i - is) w d = nth i st d) /\
    map (fun i => nth (i - is) w d) (en rest is m) = src.
Proof.
  induction m as [|m IH]; intros rest is src S R Q L.
  - simpl in L. destruct src; [|discriminate L]. exists []. repeat split. intros; lia.
  - cbn [widen_loop]. rewrite drop_lt_id by (intros e I; specialize (R e I); lia). destruct rest as [|e t].
    + rewrite en_miss in L by (intros []). destruct src as [|a src]; [discriminate L|]. injection L as L.
      destruct (IH [] (Datatypes.S is) src) as [w [W [LW [_ M]]]]; [constructor|intros ? []|intros ? []|assumption|].
      rewrite W. exists (a :: w). cbn [obind]. split; [reflexivity|]. split; [simpl; lia|]. split; [intros ? ? []|].
      rewrite en_miss by (intros []). cbn [map]. rewrite Nat.sub_diag. f_equal. rewrite <- M. apply map_ext_in.
      intros i I. apply filter_In in I as [I _]. apply in_seq in I. replace (i - is) with (Datatypes.S (i - Datatypes.S is)) by lia. reflexivity.
    + inversion S as [|? ? S' F]; subst. rewrite Forall_forall in F. destruct (Nat.eqb_spec e is) as [->|D].
      * rewrite en_hit in L. destruct (rdat st is) as [a| |] eqn:RD.
        2,3: exfalso; rewrite (rdat_ok _ _ d) in RD by (apply Q; left; reflexivity); discriminate RD.
        rewrite (rdat_ok _ _ d) in RD by (apply Q; left; reflexivity). injection RD as <-.
        destruct (IH t (Datatypes.S is) src) as [w [W [LW [FR M]]]]; try assumption.
        { intros e I. specialize (F e I). specialize (R e (or_intror I)). lia. }
        { intros e I. apply Q. right; assumption. }
        assert (W' : widen_loop m (Datatypes.S is) (is :: t) src st = widen_loop m (Datatypes.S is) t src st).
        { destruct m; [reflexivity|]. cbn [widen_loop drop_lt]. destruct (Nat.ltb_spec is (Datatypes.S is)); [reflexivity|lia]. }
        cbn [obind]. rewrite W', W. exists (nth is st d :: w). cbn [obind]. split; [reflexivity|]. split; [simpl; lia|]. split.
        -- intros i Hi [<-|I].
           ++ rewrite Nat.sub_diag. reflexivity.
           ++ specialize (F i I). replace (i - is) with (Datatypes.S (i - Datatypes.S is)) by lia. cbn [nth]. apply FR; [lia|assumption].
        -- rewrite en_hit. rewrite <- M. apply map_ext_in. intros i I. apply filter_In in I as [I _]. apply in_seq in I.
           replace (i - is) with (Datatypes.S (i - Datatypes.S is)) by lia. reflexivity.
      * assert (NI : ~ In is (e :: t)). { intros [E|I]; [congruence|]. specialize (F is I). specialize (R e (or_introl eq_refl)). lia. }
        rewrite en_miss in L by assumption. destruct src as [|a src]; [discriminate L|]. injection L as L.
        destruct (IH (e :: t) (Datatypes.S is) src) as [w [W [LW [FR M]]]]; try assumption.
        { intros y I. pose proof (R y I). destruct I as [<-|I]; [lia|]. specialize (F y I). specialize (R e (or_introl eq_refl)). lia. }
        rewrite W. exists (a :: w). cbn [obind]. split; [reflexivity|]. split; [simpl; lia|]. split.
        -- intros i Hi I. assert (i <> is) by congruence. replace (i - is) with (Datatypes.S (i - Datatypes.S is)) by lia. cbn [nth]. apply FR; [lia|assumption].
        -- rewrite en_miss by assumption. cbn [map]. rewrite Nat.sub_diag. f_equal. rewrite <- M. apply map_ext_in.
           intros i I. apply filter_In in I as [I _]. apply in_seq in I. replace (i - is) with (Datatypes.S (i - Datatypes.S is)) by lia. reflexivity.
Qed.

Lemma set_input (o o' : narrowing N) ds st : setInputNarrowing o ds st = Ret o' ->
  nmap o' = nmap o /\ inc (disIn o') /\ same_set (disIn o') ds /\ frozen o' = st /\ disOut o' = disOut o /\ (forall i, In i ds -> i < inSize (nmap o)).
Proof.
  unfold setInputNarrowing, checkIndices. destruct (forallb _ ds) eqn:E; [|discriminate]. intros H. injection H as <-. simpl.
  destruct (normalized_spec ds) as [A B]. repeat split; auto. 1,2: apply B. 
  intros i I. rewrite forallb_forall in E. apply Nat.ltb_lt, E. assumption.
Qed.
Lemma set_input_throws (o : narrowing N) ds st : (exists o', setInputNarrowing o ds st = Ret o') <-> (forall i, In i ds -> i < inSize (nmap o)).
Proof.
  unfold setInputNarrowing, checkIndices. destruct (forallb _ ds) eqn:E.
  - split; [|simpl; eauto]. intros _ i I. rewrite forallb_forall in E. apply Nat.ltb_lt, E. assumption.
  - split; [intros [o' H]; discriminate H|]. intros H. exfalso. assert (forallb (fun i => i <? inSize (nmap o)) ds = true); [|congruence].
    apply forallb_forall. intros i I. apply Nat.ltb_lt, H. assumption.
Qed.

Lemma narrow_spec (o o' : narrowing N) ds st : setInputNarrowing o ds st = Ret o' ->
  narrow_inSize o' = length (enabled ds (inSize (nmap o))) /\
  forall (d : T) x, length x = inSize (nmap o) -> narrowInput o' x = Ret (pick d x (enabled ds (length x))).
Proof.
  intros H. destruct (set_input _ _ _ _ H) as [E1 [E2 [E3 [E4 [E5 E6]]]]]. split.
  - unfold narrow_inSize. rewrite E1. unfold enabled. fold (en ds 0 (inSize (nmap o))). rewrite <- (en_same _ _ _ _ E3). rewrite en_length; auto.
    intros d I. apply E3, E6 in I. lia.
  - intros d x L. unfold narrowInput. rewrite (reduce_ok d); auto.
    + f_equal. unfold enabled. f_equal. apply (en_same _ _ _ _ E3).
    + intros e I. apply E3, E6 in I. lia.
Qed.
Lemma widen_ok (o : narrowing N) src (d : T) : inc (disIn o) -> (forall e, In e (disIn o) -> e < inSize (nmap o)) ->
  length (frozen o) = inSize (nmap o) -> length src = narrow_inSize o ->
  exists w, widenInput o src = Ret w /\ length w = inSize (nmap o) /\
    (forall i, In i (disIn o) -> nth i w d = nth i (frozen o) d) /\ pick d w (en (disIn o) 0 (inSize (nmap o))) = src.
Proof.
  intros S R LS L. unfold narrow_inSize in L. unfold widenInput. destruct (disIn o) as [|e t] eqn:E.
  - exists src. cbn [length] in L. rewrite Nat.sub_0_r in L. split; [reflexivity|]. split; [assumption|]. split; [intros ? []|].
    rewrite en_nil, <- L. apply pick_all.
  - rewrite <- E in *. destruct (widen_loop_ok d (frozen o) (inSize (nmap o)) (disIn o) 0 src) as [w [W [LW [F M]]]]; auto.
    + intros y I. specialize (R y I). lia.
    + intros y I. rewrite LS. auto.
    + rewrite L, en_length; auto. intros y I. specialize (R y I). lia.
    + exists w. split; [exact W|]. split; [assumption|]. split.
      * intros i I. specialize (F i). rewrite Nat.sub_0_r in F. apply F; auto. specialize (R i I). lia.
      * unfold pick. rewrite <- M. apply map_ext. intros i. rewrite Nat.sub_0_r. reflexivity.
Qed.
Lemma widen_spec (o o' : narrowing N) ds st : setInputNarrowing o ds st = Ret o' -> length st = inSize (nmap o) ->
  forall src (d : T), length src = narrow_inSize o' ->
  exists w, widenInput o' src = Ret w /\ length w = inSize (nmap o) /\
    (forall i, In i ds -> nth i w d = nth i st d) /\ narrowInput o' w = Ret src.
Proof.
  intros H LS src d L. destruct (set_input _ _ _ _ H) as [E1 [E2 [E3 [E4 [E5 E6]]]]].
  destruct (widen_ok o' src d) as [w [W [LW [F M]]]]; auto; try (rewrite ?E1, ?E4; congruence).
  { intros e I. rewrite E1. apply E6, E3. assumption. }
  exists w. split; [exact W|]. split; [congruence|]. split.
  - intros i I. rewrite <- E4. apply F, E3. assumption.
  - unfold narrowInput. rewrite (reduce_ok d); auto; [|intros e I; rewrite LW, E1; apply E6, E3; assumption].
    rewrite LW. f_equal. exact M.
Qed.
(** A vector is determined by its disabled and enabled components. *)
Lemma pick_inj ds n (d : T) x y : length x = n -> length y = n -> (forall i, In i ds -> i < n -> nth i x d = nth i y d) ->
  pick d x (en ds 0 n) = pick d y (en ds 0 n) -> x = y.
Proof.
  intros Lx Ly D P. apply (list_ext d); [congruence|]. intros i Hi.
  destruct (in_dec Nat.eq_dec i ds) as [I|NI]; [apply D; [assumption|lia]|].
  assert (J : In i (en ds 0 n)). { apply filter_In. split; [apply in_seq; lia|]. apply existsb_notIn in NI. rewrite NI. reflexivity. }
  unfold pick in P. revert J P. generalize (en ds 0 n). induction l as [|a l IH]; simpl; [tauto|]. intros [->|J] P; injection P; auto.
Qed.
Lemma widen_narrow (o o' : narrowing N) ds st : setInputNarrowing o ds st = Ret o' -> length st = inSize (nmap o) ->
  forall x (d : T), length x = inSize (nmap o) -> (forall i, In i ds -> nth i x d = nth i st d) ->
  exists v, narrowInput o' x = Ret v /\ length v = narrow_inSize o' /\ widenInput o' v = Ret x.
Proof.
  intros H LS x d L A. destruct (set_input _ _ _ _ H) as [E1 [E2 [E3 [E4 [E5 E6]]]]].
  destruct (narrow_spec _ _ _ _ H) as [SZ NA]. exists (pick d x (enabled ds (length x))). split; [apply NA; assumption|].
  assert (LV : length (pick d x (enabled ds (length x))) = narrow_inSize o') by (unfold pick; rewrite map_length, SZ, L; reflexivity).
  split; [exact LV|]. destruct (widen_spec _ _ _ _ H LS _ d LV) as [w [W [LW [F M]]]]. rewrite W. f_equal.
  assert (M2 := NA d w LW). rewrite M in M2. injection M2 as M2. rewrite L, LW in M2.
  apply (pick_inj ds (inSize (nmap o)) d w x); auto.
  intros i I _. rewrite F, A by assumption. reflexivity.
Qed.

Lemma set_output (o o' : narrowing N) ds : setOutputNarrowing o ds = Ret o' ->
  nmap o' = nmap o /\ disIn o' = disIn o /\ frozen o' = frozen o /\ inc (disOut o') /\ same_set (disOut o') ds /\ (forall i, In i ds -> i < outSize (nmap o)).
Proof.
  unfold setOutputNarrowing, checkIndices. destruct (forallb _ ds) eqn:E; [|discriminate]. intros H. injection H as <-. simpl.
  destruct (normalized_spec ds) as [A B]. repeat split; auto. 1,2: apply B.
  intros i I. rewrite forallb_forall in E. apply Nat.ltb_lt, E. assumption.
Qed.
Lemma narrow_map_no_output (o o' : narrowing N) ds st : disOut o = [] -> setInputNarrowing o ds st = Ret o' ->
  forall v, narrow_map o' v = (w <- widenInput o' v ;; mapf (nmap o) w).
Proof.
  intros D H v. destruct (set_input _ _ _ _ H) as [E1 [E2 [E3 [E4 [E5 E6]]]]]. unfold narrow_map. rewrite E5, D, E1.
  unfold widenInput. destruct (disIn o'); simpl; [destruct (mapf _ v); reflexivity|]. 
  destruct (widen_loop _ _ _ _ _) as [w| |]; simpl; try reflexivity. destruct (mapf _ w); reflexivity.
Qed.
Lemma narrow_map_both (o o1 o2 : narrowing N) ds es st : setInputNarrowing o ds st = Ret o1 -> setOutputNarrowing o1 es = Ret o2 ->
  same_set ds es -> forall v, narrow_map o2 v = (w <- widenInput o2 v ;; y <- mapf (nmap o) w ;; narrowOutput o2 y).
Proof.
  intros H1 H2 S v. destruct (set_input _ _ _ _ H1) as [E1 [E2 [E3 [E4 [E5 E6]]]]]. destruct (set_output _ _ _ H2) as [F1 [F2 [F3 [F4 [F5 F6]]]]].
  assert (E : disIn o2 = disOut o2).
  { apply inc_ext; [rewrite F2; assumption|assumption|]. rewrite F2. intros i. rewrite (E3 i), (F5 i). apply S. }
  unfold narrow_map, widenInput, narrowOutput. rewrite F1, E1. rewrite <- E. destruct (disIn o2) as [|e t]; simpl.
  - destruct (mapf _ v); reflexivity.
  - destruct (widen_loop _ _ _ _ _) as [w| |]; simpl; try reflexivity; destruct (mapf _ w); reflexivity.
Qed.
Lemma narrow_map_any (o o1 o2 : narrowing N) ds es st : setInputNarrowing o ds st = Ret o1 -> setOutputNarrowing o1 es = Ret o2 -> es <> [] ->
  forall v, narrow_map o2 v = (w <- widenInput o2 v ;; y <- mapf (nmap o) w ;; narrowInput o2 y).
Proof.
  intros H1 H2 S v. destruct (set_input _ _ _ _ H1) as [E1 [E2 [E3 [E4 [E5 E6]]]]]. destruct (set_output _ _ _ H2) as [F1 [F2 [F3 [F4 [F5 F6]]]]].
  assert (NE : disOut o2 <> []). { destruct es as [|e es]; [congruence|]. intros Z. assert (I : In e (disOut o2)) by (apply F5; left; reflexivity). rewrite Z in I. exact I. }
  unfold narrow_map, widenInput, narrowInput. rewrite F1, E1. destruct (disOut o2) as [|a b]; [congruence|]. destruct (disIn o2) as [|e t]; cbn [obind]; [reflexivity|].
  destruct (widen_loop _ _ _ _ _) as [w| |]; cbn [obind]; reflexivity.
Qed.
Lemma narrow_output_spec (o o' : narrowing N) ds : setOutputNarrowing o ds = Ret o' ->
  narrow_outSize o' = length (enabled ds (outSize (nmap o))) /\
  forall (d : T) x, length x = outSize (nmap o) -> narrowOutput o' x = Ret (pick d x (enabled ds (length x))).
Proof.
  intros H. destruct (set_output _ _ _ H) as [E1 [E2 [E3 [E4 [E5 E6]]]]]. split.
  - unfold narrow_outSize. rewrite E1. unfold enabled. fold (en ds 0 (outSize (nmap o))). rewrite <- (en_same _ _ _ _ E5). rewrite en_length; auto.
    intros d I. apply E5, E6 in I. lia.
  - intros d x L. unfold narrowOutput. rewrite (reduce_ok d); auto.
    + f_equal. unfold enabled. f_equal. apply (en_same _ _ _ _ E5).
    + intros e I. apply E5, E6 in I. lia.
Qed.

(** * Reordering *)
Lemma order_ok (d : T) ord x : (forall i, In i ord -> i < length x) -> order ord x = Ret (pick d x ord).
Proof.
  induction ord as [|i t IH]; intros H; [reflexivity|]. simpl. rewrite (rdat_ok _ _ d) by (apply H; left; reflexivity). cbn [obind].
  rewrite IH by (intros; apply H; right; assumption). reflexivity.
Qed.
Lemma order_throws ord x : (exists i, In i ord /\ length x <= i) -> order ord x = Throw.
Proof.
  induction ord as [|i t IH]; intros [j [I L]]; [destruct I|]. simpl. destruct (rdat x i) as [a| |] eqn:R; simpl.
  - destruct I as [->|I]; [rewrite rdat_throw in R by assumption; discriminate R|]. rewrite IH by eauto. reflexivity.
  - reflexivity.
  - unfold rdat in R. destruct (nth_error x i); discriminate R.
Qed.
Lemma vresize_length n (v : vec) : length (vresize n v) = n.
Proof. unfold vresize. rewrite app_length, firstn_length, repeat_length. lia. Qed.
(** unorder: last writer wins; for a duplicate-free ordering every element lands at its place. *)
Lemma unorder_ok (d : T) ord dst x : (forall i, In i ord -> i < length ord) -> length ord <= length x ->
  exists w, unorder ord dst x = Ret w /\ length w = length ord /\
    (NoDup ord -> forall i, i < length ord -> nth (nth i ord 0) w d = nth i x d) /\
    (forall j, ~ In j ord -> nth j w d = nth j (vresize (length ord) dst) d).
Proof.
  intros B L. unfold unorder.
  destruct (ofor_inv (fun k w => length w = length ord /\ (NoDup ord -> forall i, i < k -> nth (nth i ord 0) w d = nth i x d) /\
     (forall j, ~ In j ord -> nth j w d = nth j (vresize (length ord) dst) d)) 0 (length ord)
     (fun i dst => a <- rdat x i ;; j <- rd ord i ;; wrat dst j a) (vresize (length ord) dst)) as [w [E [P1 [P2 P3]]]].
  - lia.
  - split; [apply vresize_length|]. split; [intros; lia|reflexivity].
  - intros k w [_ Hk] [Lw [Q1 Q2]]. rewrite (rdat_ok _ _ d) by lia. rewrite (rd_ok _ _ 0) by lia. cbn [obind].
    assert (Bk : nth k ord 0 < length w) by (rewrite Lw; apply B, nth_In; lia).
    rewrite wrat_ok by assumption. eexists. split; [reflexivity|]. split; [rewrite upd_length; assumption|]. split.
    + intros ND i Hi. destruct (Nat.eq_dec i k) as [->|D]; [apply nth_upd_eq; assumption|].
      rewrite nth_upd_neq; [apply Q1; [assumption|lia]|]. intros E. apply D. eapply NoDup_nth; eauto; lia.
    + intros j NI. rewrite nth_upd_neq; [apply Q2; assumption|]. intros ->. apply NI, nth_In. lia.
  - exists w. split; [exact E|]. split; [assumption|]. split; assumption.
Qed.
Lemma perm_bounds ord n : Permutation ord (seq 0 n) -> length ord = n /\ NoDup ord /\ (forall i, In i ord <-> i < n).
Proof.
  intros P. split; [apply Permutation_length in P; rewrite seq_length in P; assumption|]. split.
  - apply (Permutation_NoDup (l := seq 0 n)); [apply Permutation_sym; assumption|apply seq_NoDup].
  - intros i. split; intros I.
    + apply (Permutation_in _ P), in_seq in I. lia.
    + apply (Permutation_in _ (Permutation_sym P)), in_seq. lia.
Qed.
Lemma unorder_order ord n dst (x : vec) : Permutation ord (seq 0 n) -> length x = n ->
  (y <- order ord x ;; unorder ord dst y) = Ret x.
Proof.
  intros P L. destruct (perm_bounds _ _ P) as [LO [ND B]].
  assert (O : order ord x = Ret (pick (n0 N) x ord)) by (apply order_ok; intros i I; apply B in I; lia). rewrite O. cbn [obind].
  assert (LP : length (pick (n0 N) x ord) = n) by (unfold pick; rewrite map_length; assumption).
  destruct (unorder_ok (n0 N) ord dst (pick (n0 N) x ord)) as [w [E [LW [V _]]]].
  - intros i I. apply B in I. lia.
  - lia.
  - rewrite E. f_equal. apply (list_ext (n0 N)); [lia|]. intros j Hj.
    destruct (In_nth ord j 0) as [i [Hi Ei]]; [apply B; lia|].
    rewrite <- Ei, (V ND i Hi). unfold pick. rewrite (nth_indep _ _ (nth 0 x (n0 N))) by (rewrite map_length; assumption).
    rewrite (map_nth (fun i => nth i x (n0 N)) ord 0). reflexivity.
Qed.
Lemma order_unorder ord n dst (x : vec) : Permutation ord (seq 0 n) -> length x = n ->
  (y <- unorder ord dst x ;; order ord y) = Ret x.
Proof.
  intros P L. destruct (perm_bounds _ _ P) as [LO [ND B]].
  destruct (unorder_ok (n0 N) ord dst x) as [w [E [LW [V _]]]].
  - intros i I. apply B in I. lia.
  - lia.
  - rewrite E. cbn [obind]. rewrite (order_ok (n0 N)) by (intros i I; apply B in I; lia). f_equal.
    apply (list_ext (n0 N)); [unfold pick; rewrite map_length; lia|]. intros i Hi. unfold pick in *. rewrite map_length in Hi.
    rewrite (nth_indep _ _ (nth 0 w (n0 N))) by (rewrite map_length; assumption).
    rewrite (map_nth (fun i => nth i w (n0 N)) ord 0). apply V; assumption.
Qed.
(** The reordered mapping is the original one conjugated: orderIn then map = map then orderOut. *)
Lemma reord_conjugate (o : reordering N) (x : vec) : Permutation (inOrd o) (seq 0 (inSize (rmap o))) -> length x = inSize (rmap o) ->
  (y <- orderInput o x ;; reord_map o y) = (z <- mapf (rmap o) x ;; orderOutput o z).
Proof.
  intros P L. unfold reord_map, unorderInput. pose proof (unorder_order _ _ [] x P L) as U. unfold orderInput.
  destruct (order (inOrd o) x) as [y| |]; cbn [obind] in U |- *; try discriminate U. rewrite U. reflexivity.
Qed.
Lemma reord_map_ok (o : reordering N) (x : vec) : Permutation (inOrd o) (seq 0 (inSize (rmap o))) -> Permutation (outOrd o) (seq 0 (outSize (rmap o))) ->
  length x = inSize (rmap o) -> (forall u, length u = inSize (rmap o) -> exists y, mapf (rmap o) u = Ret y /\ length y = outSize (rmap o)) ->
  exists u y z, unorderInput o x = Ret u /\ orderInput o u = Ret x /\ mapf (rmap o) u = Ret y /\ reord_map o x = Ret z /\ unorderOutput o z = Ret y.
Proof.
  intros P Q L F. destruct (perm_bounds _ _ P) as [LO [ND B]].
  pose proof (order_unorder _ _ [] x P L) as OU. unfold unorderInput, orderInput, reord_map, unorderInput, orderOutput, unorderOutput.
  destruct (unorder_ok (n0 N) (inOrd o) [] x) as [u [E [LU _]]]; [intros i I; apply B in I; lia|lia|].
  rewrite E in OU |- *. cbn [obind] in OU |- *. destruct (F u) as [y [Ey Ly]]; [lia|].
  pose proof (unorder_order _ _ [] y Q Ly) as UO. destruct (perm_bounds _ _ Q) as [LO2 [ND2 B2]].
  rewrite (order_ok (n0 N)) in UO by (intros i I; apply B2 in I; lia). cbn [obind] in UO.
  exists u, y, (pick (n0 N) y (outOrd o)). rewrite Ey. cbn [obind]. rewrite (order_ok (n0 N) (outOrd o) y) by (intros i I; apply B2 in I; lia).
  repeat split; assumption.
Qed.

(** * Diagonal mapping *)
Lemma diag_ok (op : T -> T -> T) (d : T) dv : forall x, length x = length dv ->
  exists y, diag_op op dv x = Ret y /\ length y = length x /\ forall i, i < length x -> nth i y d = op (nth i x d) (nth i dv d).
Proof.
  induction dv as [|b dv IH]; intros x L; destruct x as [|a x]; try discriminate L; [exists []; repeat split; simpl; intros; lia|].
  injection L as L. destruct (IH x L) as [y [E [LY V]]]. simpl. rewrite E. eexists. split; [reflexivity|]. split; [simpl; congruence|].
  intros [|i] Hi; [reflexivity|]. simpl in *. apply V. lia.
Qed.
Lemma norm_map_ok (f : vmapping N) dv x : length dv = inSize f -> outSize f = inSize f -> length x = inSize f ->
  (forall u, length u = inSize f -> exists y, mapf f u = Ret y /\ length y = outSize f) ->
  exists a y z, length a = inSize f /\ (forall i, i < inSize f -> nth i a (n0 N) = nmul N (nth i x (n0 N)) (nth i dv (n0 N))) /\
    mapf f a = Ret y /\ norm_map f dv x = Ret z /\ length z = outSize f /\
    (forall i, i < outSize f -> nth i z (n0 N) = nmul N (nth i y (n0 N)) (nth i dv (n0 N))).
Proof.
  intros LD LO LX F. unfold norm_map, diag_map.
  destruct (diag_ok (nmul N) (n0 N) dv x) as [a [Ea [La Va]]]; [congruence|]. rewrite Ea. cbn [obind].
  destruct (F a) as [y [Ey Ly]]; [congruence|]. rewrite Ey. cbn [obind].
  destruct (diag_ok (nmul N) (n0 N) dv y) as [z [Ez [Lz Vz]]]; [congruence|].
  exists a, y, z. repeat split; auto; try congruence; intros i Hi; [apply Va|apply Vz]; lia.
Qed.
End AnyNum.

(** ** Exact arithmetic *)
Lemma diag_roundtrip (dv : list Qc) : (forall x : list Qc, length x = length dv -> (y <- diag_map (N:=QcNum) dv x ;; diag_unmap (N:=QcNum) dv y) = Ret x) <->
  (forall b, In b dv -> b <> 0%Qc).
Proof.
  split.
  - intros H b I ->. specialize (H (repeat 1%Qc (length dv)) (repeat_length _ _)). unfold diag_map, diag_unmap in H.
    revert H. induction dv as [|c dv IH]; [destruct I|]. cbn [diag_op length repeat].
    destruct (diag_op (nmul QcNum) dv (repeat 1%Qc (length dv))) as [y| |]; cbn [obind] in *; try discriminate.
    cbn [diag_op]. destruct (diag_op (ndiv QcNum) dv y) as [z| |] eqn:E2; cbn [obind]; try discriminate.
    intros H. injection H as H1 H2. destruct I as [->|I].
    + revert H1. replace (nmul QcNum 1%Qc 0%Qc / 0)%Qc with 0%Qc by (apply Qc_is_canon; reflexivity). discriminate.
    + apply IH; [assumption|]. rewrite H2; reflexivity.
  - intros NZ x. revert x. induction dv as [|b dv IH]; intros [|a x] L; try discriminate L; [reflexivity|]. injection L as L.
    assert (NZ' : forall b0, In b0 dv -> b0 <> 0%Qc) by (intros; apply NZ; right; assumption).
    specialize (IH NZ' x L). unfold diag_map, diag_unmap in *. simpl in *.
    destruct (diag_op (N:=QcNum) Qcmult dv x) as [y| |]; cbn [obind] in *; try discriminate IH. simpl. rewrite IH. cbn [obind].
    f_equal. f_equal. field. apply NZ. left; reflexivity.
Qed.
Lemma diag_unmap_map (dv x : list Qc) : length x = length dv -> (forall b, In b dv -> b <> 0%Qc) ->
  (y <- diag_unmap (N:=QcNum) dv x ;; diag_map (N:=QcNum) dv y) = Ret x.
Proof.
  revert x. induction dv as [|b dv IH]; intros [|a x] L NZ; try discriminate L; [reflexivity|]. injection L as L.
  assert (NZ' : forall b0, In b0 dv -> b0 <> 0%Qc) by (intros; apply NZ; right; assumption).
  specialize (IH x L NZ'). unfold diag_map, diag_unmap in *. simpl in *.
  destruct (diag_op (N:=QcNum) Qcdiv dv x) as [y| |]; cbn [obind] in *; try discriminate IH. simpl. rewrite IH. cbn [obind].
  f_equal. f_equal. field. apply NZ. left; reflexivity.
Qed.
(** Necessity of being a permutation for orderings of matching length. *)
Lemma unorder_order_iff (ord : list nat) : 
  (forall x : list Qc, length x = length ord -> (y <- order (N:=QcNum) ord x ;; unorder (N:=QcNum) ord [] y) = Ret x) <->
  Permutation ord (seq 0 (length ord)).
Proof.
  split.
  - intros H. specialize (H (repeat 1%Qc (length ord)) (repeat_length _ _)).
    assert (B : forall i, In i ord -> i < length ord).
    { intros i I. destruct (Nat.lt_ge_cases i (length ord)) as [|G]; [assumption|].
      rewrite (order_throws (N:=QcNum)) in H; [discriminate H|]. exists i. rewrite repeat_length. auto. }
    rewrite (order_ok (N:=QcNum) 0%Qc) in H by (intros i I; rewrite repeat_length; auto). cbn [obind] in H.
    destruct (unorder_ok (N:=QcNum) 0%Qc ord [] (pick 0%Qc (repeat 1%Qc (length ord)) ord)) as [w [E [LW [_ Z]]]]; [assumption|unfold pick; rewrite map_length; lia|].
    pose proof (eq_trans (eq_sym E) H) as H2. injection H2 as ->.
    apply Permutation_sym, NoDup_Permutation_bis; [apply seq_NoDup|rewrite seq_length; lia|].
    intros j J. apply in_seq in J. destruct (in_dec Nat.eq_dec j ord) as [|NI]; [assumption|]. exfalso.
    specialize (Z j NI). unfold vresize in Z. rewrite firstn_nil in Z. simpl in Z. rewrite Nat.sub_0_r in Z. rewrite !nth_repeat in Z.
    rewrite (nth_indep _ _ 1%Qc) in Z by (rewrite repeat_length; lia). rewrite nth_repeat in Z. discriminate Z.
  - intros P x L. apply (unorder_order (N:=QcNum) _ (length ord)); assumption.
Qed.
