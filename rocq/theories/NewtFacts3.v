(** NewtFacts3.v - proofs about NewtonSolver::run. *)
From Coq Require Import List Arith Bool QArith Qcanon Lia.
From Verif Require Import Base BaseFacts SMap SpModel MapModel JacModel JacSpec VecModel VOps LUModel NewtModel NewtSpec NewtFacts NewtFacts2.
Import ListNotations.
Local Open Scope nat_scope.

Section Run.
Context {N : Num} {S : Type} (c : comps N S).
Notation event := (event N).
Definition stops (l : list event) : Prop := exists m, In (EvObs m true) l.
Definition tail_of (st : estatus) (b : bool) (l : list event) : Prop :=
  exists n m, ends_with l [EvIter n st; EvObs m false; EvAdjust false; EvReport b].
Definition att_facts (k it bias : nat) (tried : bool) (new : list event) (m : nat) (st : option nstatus) : Prop :=
  m <= k /\ iter_numbers new = seq it m /\ obs_numbers new = seq (it + bias) m /\ guesses new = [] /\ followed new /\
  match st with
  | Some NTerminated => (exists j, ends_with new [EvObs j true]) /\ successes new = []
  | Some NConverged => tail_of EConverged true new /\ successes new = [true] /\ ~ stops new
  | Some NDiverged => tried = true /\ tail_of EDiverged false new /\ successes new = [false] /\ ~ stops new
  | Some NLimit => False
  | None => ~ stops new /\ ((m = k /\ successes new = []) \/ (tried = false /\ tail_of EDiverged false new /\ successes new = [false]))
  end.
Lemma ends_app (pre l suf : list event) : ends_with l suf -> ends_with (pre ++ l) suf.
Proof. intros [p E]. exists (pre ++ p). rewrite E, app_assoc. reflexivity. Qed.
Lemma followed_app (a b : list event) : followed a -> followed b -> followed (a ++ b).
Proof.
  intros A B pre n e suf E. revert pre E. induction a as [|x a I] ; intros pre E.
  - apply (B pre n e suf E).
  - destruct pre as [|y pre].
    + simpl in E. inversion E; subst x suf. destruct (A [] n e a eq_refl) as [m [b' [s' [H1 H2]]]]. exists m, b', (s' ++ b). split; [rewrite H1; reflexivity|].
      intros F. destruct (H2 F) as [ag [s'' H3]]. exists ag, (s'' ++ b). rewrite H3. reflexivity.
    + simpl in E. inversion E; subst y. apply (I (fun p n e s H => A (x :: p) n e s (f_equal (cons x) H)) pre). assumption.
Qed.
Lemma followed_3 it st j ag : followed ([EvIter it st; EvObs j false; EvAdjust ag] : list event).
Proof.
  intros pre n e suf E. destruct pre as [|x [|y [|z [|]]]]; simpl in E; inversion E; subst. exists j, false, [EvAdjust ag]. split; [reflexivity|]. eauto.
Qed.
Lemma followed_3r it st j ag b : followed ([EvIter it st; EvObs j false; EvAdjust ag; EvReport b] : list event).
Proof. apply (followed_app [_;_;_] [EvReport b]). apply followed_3. intros pre n e suf E. destruct pre as [|? [|]]; simpl in E; inversion E. Qed.
Lemma followed_2 it st j : followed ([EvIter it st; EvObs j true] : list event).
Proof. intros pre n e suf E. destruct pre as [|x [|y [|]]]; simpl in E; inversion E; subst. exists j, true, []. split; [reflexivity|]. discriminate. Qed.
Lemma iter_app (a b : list event) : iter_numbers (a ++ b) = iter_numbers a ++ iter_numbers b. Proof. apply flat_map_app. Qed.
Lemma obs_app (a b : list event) : obs_numbers (a ++ b) = obs_numbers a ++ obs_numbers b. Proof. apply flat_map_app. Qed.
Lemma succ_app (a b : list event) : successes (a ++ b) = successes a ++ successes b. Proof. apply flat_map_app. Qed.
Lemma guess_app (a b : list event) : guesses (a ++ b) = guesses a ++ guesses b. Proof. apply flat_map_app. Qed.
Lemma stops_app (a b : list event) : stops (a ++ b) <-> stops a \/ stops b.
Proof. unfold stops. setoid_rewrite in_app_iff. firstorder. Qed.
Lemma att_step k it bias tried st1 ag new m st : att_facts k (Datatypes.S it) bias tried new m st ->
  att_facts (Datatypes.S k) it bias tried ([EvIter it st1; EvObs (it + bias) false; EvAdjust ag] ++ new) (Datatypes.S m) st.
Proof.
  intros [A [B [C [G [F M]]]]]. split; [lia|]. split; [rewrite iter_app, B; reflexivity|]. split; [rewrite obs_app, C; reflexivity|].
  split; [rewrite guess_app, G; reflexivity|]. split; [apply followed_app; [apply followed_3|assumption]|].
  assert (NS : ~ stops ([EvIter it st1; EvObs (it + bias) false; EvAdjust ag] : list event)).
  { intros [j H]. simpl in H. destruct H as [H|[H|[H|[]]]]; inversion H. }
  assert (NS2 : ~ stops new -> ~ stops ([EvIter it st1; EvObs (it + bias) false; EvAdjust ag] ++ new)).
  { intros H1 H2. apply stops_app in H2. destruct H2; contradiction. }
  assert (TL : forall s b, tail_of s b new -> tail_of s b ([EvIter it st1; EvObs (it + bias) false; EvAdjust ag] ++ new)).
  { intros s b [n' [m' H]]. exists n', m'. apply ends_app. assumption. }
  rewrite succ_app. change (successes [EvIter it st1; EvObs (it + bias) false; EvAdjust ag]) with (@nil bool). cbn [app].
  destruct st as [[| | |]|].
  - destruct M as [M1 [M2 M3]]. repeat split; [apply TL, M1|assumption|apply NS2, M3].
  - destruct M as [M0 [M1 [M2 M3]]]. repeat split; [assumption|apply TL, M1|assumption|apply NS2, M3].
  - destruct M as [[j M1] M2]. split; [|assumption]. exists j. apply (ends_app [_;_;_]). assumption.
  - assumption.
  - destruct M as [M1 M2]. split; [apply NS2, M1|]. destruct M2 as [[M2 M3]|[M2 [M3 M4]]]; [left; split; [lia|assumption]|right].
    repeat split; [assumption|apply TL, M3|assumption].
Qed.
Lemma attempt_ok : forall k it bias tried s log s' log' it' st, attempt c k it bias tried s log = Ret (s', log', it', st) ->
  exists new m, log' = log ++ new /\ it' = it + m /\ att_facts k it bias tried new m st.
Proof.
  induction k as [|k I]; intros it bias tried s log s' log' it' st E; simpl in E.
  { inversion E; subst. exists [], 0. rewrite app_nil_r. repeat split; auto; try lia. - intros pre n e suf H. destruct pre; discriminate. - intros [? []]. }
  binv E. binv E. destruct r as [s1 e1], r0 as [s2 stop]. simpl in E. destruct stop.
  { inversion E; subst. exists [EvIter it e1; EvObs (it + bias) true], 1. repeat split; auto; try lia. - apply followed_2. - exists (it + bias), [EvIter it e1]. reflexivity. }
  binv E. destruct r as [s3 ag]. simpl in E.
  assert (REC : forall s4, attempt c k (Datatypes.S it) bias tried s4 ((log ++ [EvIter it e1; EvObs (it + bias) false]) ++ [EvAdjust ag]) = Ret (s', log', it', st) ->
    exists new m, log' = log ++ new /\ it' = it + m /\ att_facts (Datatypes.S k) it bias tried new m st).
  { intros s4 H. destruct (I _ _ _ _ _ _ _ _ _ H) as [new [m [A [B C]]]].
    exists ([EvIter it e1; EvObs (it + bias) false; EvAdjust ag] ++ new), (Datatypes.S m). split; [rewrite A, <- !app_assoc; reflexivity|]. split; [lia|].
    apply att_step. assumption. }
  assert (NS : forall b, ~ stops ([EvIter it e1; EvObs (it + bias) false; EvAdjust false; EvReport b] : list event)).
  { intros b [j H]. simpl in H. destruct H as [H|[H|[H|[H|[]]]]]; inversion H. }
  destruct e1.
  - destruct ag; [eauto|]. inversion E; subst. exists [EvIter it EConverged; EvObs (it + bias) false; EvAdjust false; EvReport true], 1.
    split; [rewrite <- !app_assoc; reflexivity|]. split; [lia|]. split; [lia|]. do 3 (split; [reflexivity|]). split; [apply followed_3r|].
    split; [exists it, (it + bias), []; reflexivity|]. split; [reflexivity|]. apply NS.
  - eauto.
  - destruct ag; [eauto|]. inversion E; subst. exists [EvIter it EDiverged; EvObs (it + bias) false; EvAdjust false; EvReport false], 1.
    split; [rewrite <- !app_assoc; reflexivity|]. split; [lia|]. split; [lia|]. do 3 (split; [reflexivity|]). split; [apply followed_3r|].
    assert (TL : tail_of EDiverged false ([EvIter it EDiverged; EvObs (it + bias) false; EvAdjust false; EvReport false] : list event)) by (exists it, (it + bias), []; reflexivity).
    destruct tried; [repeat split; auto|]. split; [apply NS|]. right. auto.
Qed.

Lemma run_ok limit s s' log st : nrun c limit s = Ret (s', log, st) -> exists s0 a b, c_reset c s = Ret s0 /\
  a <= limit /\ b <= limit /\ iter_numbers log = seq 0 a ++ seq 0 b /\ obs_numbers log = seq 0 (a + b) /\ followed log /\
  (guesses log = [] /\ b = 0 \/ guesses log = [c_sol c s0]) /\
  (st = NTerminated <-> stops log) /\ (st = NTerminated -> exists j, ends_with log [EvObs j true]) /\
  (st = NConverged -> tail_of EConverged true log) /\ (st = NDiverged -> tail_of EDiverged false log /\ guesses log = [c_sol c s0]) /\
  (st = NLimit -> ends_with log [EvReport false]) /\
  (st = NConverged <-> In true (successes log)) /\ length (filter (fun x => x) (successes log)) <= 1 /\
  (st = NLimit -> (a = limit /\ b = limit) \/ (guesses log = [] /\ a = limit) \/ (exists n, In (EvIter n EDiverged) log)).
Proof.
  unfold nrun. intros E. binv E. rename r into s0. exists s0. binv E. destruct r as [[[s1 log1] it1] st1].
  destruct (attempt_ok _ _ _ _ _ _ _ _ _ _ E1) as [n1 [a [L1 [T1 F1]]]]. simpl in L1, T1. subst log1 it1.
  destruct F1 as [A1 [A2 [A3 [A4 [A5 A6]]]]]. rewrite Nat.add_0_l in A3.
  assert (FR : followed ([EvReport false] : list event)) by (intros pre n e suf H; destruct pre as [|? [|]]; simpl in H; inversion H).
  assert (NR : ~ stops ([EvReport false] : list event)) by (intros [? [H|[]]]; inversion H).
  assert (STL : forall st b l, tail_of st b l -> exists n, In (EvIter n st) l).
  { intros st' b l [n [m [p H]]]. exists n. rewrite H. apply in_app_iff. simpl. auto. }
  assert (EST : forall j l, ends_with l [EvObs j true] -> stops l).
  { intros j l [p H]. exists j. rewrite H. apply in_app_iff. simpl. auto. }
  destruct st1 as [st1|].
  - inversion E; subst s1 n1 st1. clear E. exists a, 0. rewrite A2, A3, A4. simpl. rewrite app_nil_r, Nat.add_0_r.
    do 3 (split; [try lia; assumption || reflexivity|]). do 3 (split; [try reflexivity; try assumption|]). split; [auto|].
    destruct st; try contradiction.
    + destruct A6 as [B1 [B2 B3]]. rewrite B2. repeat split; try discriminate; auto; try contradiction; simpl; auto; try lia.
    + destruct A6 as [B1 _]. discriminate.
    + destruct A6 as [[j B1] B2]. rewrite B2. repeat split; try discriminate; auto; simpl; try contradiction; try lia; eauto.
  - destruct A6 as [B1 B2]. destruct (c_help c s1).
    + binv E. rename r into s2. binv E. destruct r as [[[s3 log3] it3] st3].
      destruct (attempt_ok _ _ _ _ _ _ _ _ _ _ E3) as [n2 [b [L2 [T2 [C1 [C2 [C3 [C4 [C5 C6]]]]]]]]]. simpl in T2. subst log3. clear T2.
      rewrite Nat.add_0_l in C3.
      assert (FG : followed ([EvGuess (c_sol c s0)] : list event)) by (intros pre n e suf H; destruct pre as [|? [|]]; simpl in H; inversion H).
      assert (NG : ~ stops ([EvGuess (c_sol c s0)] : list event)) by (intros [? [H|[]]]; inversion H).
      assert (SF : forall x, In x (successes n1) -> x = false) by (destruct B2 as [[_ B2]|[_ [_ B2]]]; rewrite B2; simpl; intuition).
      assert (SL : filter (fun x => x) (successes n1) = []) by (destruct B2 as [[_ B2]|[_ [_ B2]]]; rewrite B2; reflexivity).
      assert (X1 : iter_numbers ((n1 ++ [EvGuess (c_sol c s0)]) ++ n2) = seq 0 a ++ seq 0 b) by (rewrite !iter_app, A2, C2; simpl; rewrite app_nil_r; reflexivity).
      assert (X2 : obs_numbers ((n1 ++ [EvGuess (c_sol c s0)]) ++ n2) = seq 0 (a + b)).
      { rewrite !obs_app, A3, C3. simpl. rewrite app_nil_r, seq_app. reflexivity. }
      assert (X3 : followed ((n1 ++ [EvGuess (c_sol c s0)]) ++ n2)) by (repeat apply followed_app; assumption).
      assert (X4 : guesses ((n1 ++ [EvGuess (c_sol c s0)]) ++ n2) = [c_sol c s0]) by (rewrite !guess_app, A4, C4; reflexivity).
      assert (X5 : successes ((n1 ++ [EvGuess (c_sol c s0)]) ++ n2) = successes n1 ++ successes n2) by (rewrite !succ_app; simpl; rewrite app_nil_r; reflexivity).
      assert (X6 : stops ((n1 ++ [EvGuess (c_sol c s0)]) ++ n2) <-> stops n2) by (rewrite !stops_app; intuition).
      assert (X7 : forall suf, ends_with n2 suf -> ends_with ((n1 ++ [EvGuess (c_sol c s0)]) ++ n2) suf) by (intros; apply ends_app; assumption).
      assert (X8 : forall e, In e n1 -> In e ((n1 ++ [EvGuess (c_sol c s0)]) ++ n2)) by (intros e H; apply in_app_iff; left; apply in_app_iff; auto).
      set (l3 := (n1 ++ [EvGuess (c_sol c s0)]) ++ n2) in *. clearbody l3.
      destruct st3 as [st3|].
      * inversion E; subst s3 l3 st3. clear E. exists a, b. split; [assumption|]. do 5 (split; [assumption|]). split; [auto|].
        assert (TT : forall x y, tail_of x y n2 -> tail_of x y log) by (intros x y [n [m H]]; exists n, m; auto).
        rewrite X6, X5, filter_app, SL. simpl.
        destruct st; try contradiction.
        -- destruct C6 as [D1 [D2 D3]]. rewrite D2. repeat split; try discriminate; auto; try contradiction; try lia; simpl; try lia. intros _. apply in_app_iff; simpl; auto.
        -- destruct C6 as [_ [D1 [D2 D3]]]. rewrite D2. repeat split; try discriminate; auto; try contradiction; simpl; try lia.
           intros H. apply in_app_iff in H. destruct H as [H|[H|[]]]; [apply SF in H|]; discriminate.
        -- destruct C6 as [[j D1] D2]. rewrite D2. repeat split; try discriminate; auto; try contradiction; simpl; try lia; eauto.
           intros H. apply in_app_iff in H. destruct H as [H|[]]; apply SF in H; discriminate.
      * inversion E; subst s' log st. clear E. exists a, b.
        rewrite iter_app, obs_app, guess_app, succ_app, X1, X2, X4, X5, stops_app, X6. change (iter_numbers [EvReport false]) with (@nil nat).
        change (obs_numbers [EvReport false]) with (@nil nat). change (guesses [EvReport false]) with (@nil (list (nT N))). change (successes [EvReport false]) with [false].
        rewrite !app_nil_r. split; [assumption|]. do 4 (split; [assumption || reflexivity|]). split; [apply followed_app; assumption|]. split; [auto|].
        destruct C6 as [D1 D2].
        assert (SF2 : forall x, In x (successes n2) -> x = false) by (destruct D2 as [[_ D2]|[_ [_ D2]]]; rewrite D2; simpl; intuition).
        assert (SL2 : filter (fun x => x) (successes n2) = []) by (destruct D2 as [[_ D2]|[_ [_ D2]]]; rewrite D2; reflexivity).
        repeat split; try discriminate; try (intuition; fail).
        -- intros _. exists l3. reflexivity.
        -- intros H. rewrite <- app_assoc in H. apply in_app_iff in H. destruct H as [H|H]; [apply SF in H; discriminate|].
           apply in_app_iff in H. destruct H as [H|[H|[]]]; [apply SF2 in H|]; discriminate.
        -- rewrite !filter_app, SL, SL2. simpl. lia.
        -- intros _. destruct D2 as [[D2 _]|[D2 _]]; [|discriminate]. destruct B2 as [[B2 _]|[_ [B2 _]]]; [auto|].
           right; right. destruct (STL _ _ _ B2) as [n H]. exists n. apply in_app_iff. left.
           apply X8. assumption.
    + inversion E; subst s' log st. clear E. exists a, 0.
      rewrite iter_app, obs_app, guess_app, succ_app, A2, A3, A4, stops_app. change (iter_numbers [EvReport false]) with (@nil nat).
      change (obs_numbers [EvReport false]) with (@nil nat). change (guesses [EvReport false]) with (@nil (list (nT N))). change (successes [EvReport false]) with [false].
      rewrite Nat.add_0_r. cbn [seq]. rewrite !app_nil_r. split; [assumption|]. do 4 (split; [assumption || reflexivity || lia|]). split; [apply followed_app; assumption|]. split; [auto|].
      assert (SF : forall x, In x (successes n1) -> x = false) by (destruct B2 as [[_ B2]|[_ [_ B2]]]; rewrite B2; simpl; intuition).
      assert (SL : filter (fun x => x) (successes n1) = []) by (destruct B2 as [[_ B2]|[_ [_ B2]]]; rewrite B2; reflexivity).
      repeat split; try discriminate; try (intuition; fail).
      * intros _. exists n1. reflexivity.
      * intros H. apply in_app_iff in H. destruct H as [H|[H|[]]]; [apply SF in H|]; discriminate.
      * rewrite !filter_app, SL. simpl. lia.
      * intros _. destruct B2 as [[B2 _]|[_ [B2 _]]]; [auto|]. right; right. destruct (STL _ _ _ B2) as [n H]. exists n. apply in_app_iff. auto.
Qed.
End Run.
