(** RkFacts6.v - all results of a step, including the one taken by the shortcut. *)
From Coq Require Import List Arith Lia Bool ZArith QArith Qcanon Factorial.
From Verif Require Import Base BaseFacts VecModel VOps RkModel RkSpec RkFacts RkFacts2 RkFacts3 RkFacts4 RkFacts5.
Import ListNotations.
Local Open Scope nat_scope.

Lemma compute_all co stages n nx f x1 t1 h (o : output QcNum) :
  wf_table co stages nx -> shortcut_ok co stages -> good_rhs (N:=QcNum) n f -> length x1 = n -> shaped o stages n nx ->
  exists o' evals, rk_compute (N:=QcNum) o co f x1 t1 h = Ret (o', evals) /\ shaped o' stages n nx /\
    textbook_stages co stages n f x1 t1 h evals (o_k o') /\
    (forall ix, ix < nx -> textbook_result co stages n ix x1 h (o_k o') (nth ix (o_x2 o') [])).
Proof.
  intros WF SC GR LX SH. destruct (compute_ok co stages n nx f x1 t1 h WF GR LX o SH) as [o' [evals [E [S' [TS [TR TL]]]]]].
  destruct SC as [NEG|[ix [EL [ST RR]]]].
  - exists o', evals. split; [assumption|]. split; [assumption|]. split; [assumption|]. intros ix Hix. apply TR; [assumption|lia].
  - exists o', evals. split; [assumption|]. split; [assumption|]. split; [assumption|].
    pose proof (fsal_visible (N:=QcNum) co stages n nx ix f x1 t1 h o LX ST EL RR SH) as FV.
    destruct (compute_ok (no_shortcut co) stages n nx f x1 t1 h) with (o := o) as [o2 [ev2 [E2 [S2 [TS2 [TR2 _]]]]]]; [exact WF|exact GR|exact LX|exact SH|].
    change (nT QcNum) with Qc in *. rewrite E, E2 in FV. simpl in FV. injection FV as F1 F2 F3. rewrite F1, F2. intros i Hi. apply (TR2 i Hi). simpl. lia.
Qed.
Lemma linear_any co stages n nx M x1 t1 h o o' evals ix p : wf_table co stages nx -> shortcut_ok co stages -> length x1 = n -> shaped o stages n nx ->
  order_conditions co stages ix p -> p <= stages -> ix < nx -> rk_compute (N:=QcNum) o co (linear_rhs n M) x1 t1 h = Ret (o', evals) ->
  forall i, i < n -> cmp_ (nth ix (o_x2 o') []) i =
     (qsum (S p) (fun m => qpow h m / qn (fact m) * mpow n M m x1 i)
      + qsum (stages - p) (fun r => qpow h (S (p + r)) * weight co stages ix (tall (p + r)) * mpow n M (S (p + r)) x1 i))%Qc.
Proof.
  intros WF SC LX SH OC Hp Hix E i Hi. destruct (compute_all co stages n nx (linear_rhs n M) x1 t1 h o WF SC (linear_good n M) LX SH) as [o2 [ev2 [E2 [_ [TS TR]]]]].
  change (nT QcNum) with Qc in *. rewrite E in E2. injection E2 as <- <-. exact (lin_order co stages n M x1 t1 h evals (o_k o') ix _ p Hp OC TS (TR ix Hix) i Hi).
Qed.
Lemma quad_any co stages n nx deg a x1 t1 h o o' evals ix p : wf_table co stages nx -> shortcut_ok co stages -> length x1 = n -> shaped o stages n nx ->
  order_conditions co stages ix p -> row_sums co stages -> deg <= p -> ix < nx -> rk_compute (N:=QcNum) o co (poly_rhs n deg a t1) x1 t1 h = Ret (o', evals) ->
  forall i, i < n -> cmp_ (nth ix (o_x2 o') []) i = (cmp_ x1 i + qsum deg (fun m => a i m * (qpow h (S m) / qn (S m))))%Qc.
Proof.
  intros WF SC LX SH OC RS Hp Hix E i Hi. destruct (compute_all co stages n nx (poly_rhs n deg a t1) x1 t1 h o WF SC (poly_good n deg a t1) LX SH) as [o2 [ev2 [E2 [_ [TS TR]]]]].
  change (nT QcNum) with Qc in *. rewrite E in E2. injection E2 as <- <-. exact (quad_order co stages n deg a x1 t1 h evals (o_k o') ix _ p Hp OC RS TS (TR ix Hix) i Hi).
Qed.

(** * The built-in tables *)
Lemma wf_euler : wf_table tab_euler 1 1. Proof. repeat split; try reflexivity. lia. Qed.
Lemma wf_rk4 : wf_table tab_rk4 4 1. Proof. repeat split; try reflexivity. lia. Qed.
Lemma wf_dopri45 : wf_table tab_dopri45 7 2. Proof. repeat split; try reflexivity. lia. Qed.
Lemma wf_dopri56 : wf_table tab_dopri56 8 2. Proof. repeat split; try reflexivity. lia. Qed.
Lemma wf_dopri78 : wf_table tab_dopri78 13 2. Proof. repeat split; try reflexivity. lia. Qed.
Lemma sc_neg (co : coeffs QcNum) stages : co_last co = (-1)%Z -> shortcut_ok co stages.
Proof. intros E. left. rewrite E. reflexivity. Qed.
Lemma sc_dopri45 : shortcut_ok tab_dopri45 7.
Proof.
  right. exists 0. split; [reflexivity|]. split; [lia|]. split.
  - intros i Hi. do 6 (destruct i as [|i]; [reflexivity|]). lia.
  - eexists. split; reflexivity.
Qed.
Lemma ord_euler : order_conditions tab_euler 1 0 1. Proof. apply exact_sound. vm_compute. reflexivity. Qed.
Lemma ord_rk4 : order_conditions tab_rk4 4 0 4. Proof. apply exact_sound. vm_compute. reflexivity. Qed.
Lemma ord_dopri45_hi : order_conditions tab_dopri45 7 0 5. Proof. apply exact_sound. vm_compute. reflexivity. Qed.
Lemma ord_dopri45_lo : order_conditions tab_dopri45 7 1 4. Proof. apply exact_sound. vm_compute. reflexivity. Qed.
Lemma ord_dopri56_hi : order_conditions tab_dopri56 8 0 6. Proof. apply exact_sound. vm_compute. reflexivity. Qed.
Lemma ord_dopri56_lo : order_conditions tab_dopri56 8 1 5. Proof. apply exact_sound. vm_compute. reflexivity. Qed.
Lemma rows_euler : row_sums tab_euler 1. Proof. apply check_rows_sound. vm_compute. reflexivity. Qed.
Lemma rows_rk4 : row_sums tab_rk4 4. Proof. apply check_rows_sound. vm_compute. reflexivity. Qed.
Lemma rows_dopri45 : row_sums tab_dopri45 7. Proof. apply check_rows_sound. vm_compute. reflexivity. Qed.
Lemma rows_dopri56 : row_sums tab_dopri56 8. Proof. apply check_rows_sound. vm_compute. reflexivity. Qed.
Fixpoint check_rows_near (co : coeffs QcNum) (s : nat) : bool :=
  match s with O => true | S s' => check_rows_near co s' && Qcleb (Qcabs (qsum s' (fun i => A_ co s' i) - C_ co s')%Qc) (qc 1 10000000000000000) end.
Lemma check_rows_near_sound co stages : check_rows_near co stages = true -> forall s, s < stages -> (Qcabs (qsum s (fun i => A_ co s i) - C_ co s) <= qc 1 10000000000000000)%Qc.
Proof.
  induction stages as [|s I]; intros H r R; [lia|]. simpl in H. apply andb_true_iff in H. destruct H as [H1 H2].
  destruct (Nat.eq_dec r s) as [->|NE]; [apply Qcleb_le; assumption|apply I; [assumption|lia]].
Qed.
Lemma rows_dopri78 : forall s, s < 13 -> (Qcabs (qsum s (fun i => A_ tab_dopri78 s i) - C_ tab_dopri78 s) <= qc 1 10000000000000000)%Qc.
Proof. apply check_rows_near_sound. vm_compute. reflexivity. Qed.
Lemma fixed_history (W : Type) (f : W -> Qc -> list Qc -> Outcome (list Qc)) (co : coeffs QcNum) stages n h :
  wf_table co stages 1 -> co_last co = (-1)%Z -> forall w, good_rhs (N:=QcNum) n (f w) ->
  forall t0 x0 s0 count, rk_w s0 = w -> length x0 = n ->
  exists s' posts traj, rk_steps (N:=QcNum) no_events f co n h count (rk_set (N:=QcNum) no_events t0 x0 s0) = Ret (s', posts) /\
    posts = repeat (mkPost (N:=QcNum) h true false false 0%Qc None 0%Z) count /\
    traj 0 = (t0, x0) /\ traj count = (rk_t s', rk_x s') /\ rk_t s' = (t0 + qn count * h)%Qc /\
    forall i, i < count -> textbook_step co stages n (f w) h (traj i) (traj (S i)).
Proof.
  intros WF LAST w GR t0 x0 s0 count EW LX.
  destruct (rk_steps_ok f co stages n h WF LAST w GR count (rk_set (N:=QcNum) no_events t0 x0 s0)) as [s' [posts [traj [E [RD [P [T0 [TC TT]]]]]]]].
  - exact EW.
  - split; [exact LX|]. left. reflexivity.
  - exists s', posts, traj. split; [assumption|]. split; [assumption|]. split; [exact T0|]. split; [assumption|]. split; [|assumption].
    pose proof (traj_time co stages n h (f w) traj count TT count (le_n _)) as Q. rewrite TC, T0 in Q. exact Q.
Qed.
