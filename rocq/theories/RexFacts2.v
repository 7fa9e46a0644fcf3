(** RexFacts2.v - exceptions in steps of the Rosenbrock solvers: what they leave behind, and starting again. *)
From Coq Require Import List Arith Bool Lia ZArith QArith Qcanon.
From Verif Require Import Base BaseFacts VecModel VOps SMap SpModel SpSpec LUSpec LUModel RkModel RkSpec StepModel RosModel RosSpec RkFacts RosFacts RosFacts5 RosFacts6 RosFacts7.
Import ListNotations.
Local Open Scope nat_scope.
Section Rex.
Context {W : Type} (ev : events QcNum W) (c : rcfg W) (f : Qc -> list Qc -> Outcome (list Qc)).
Lemma w1_restart_ok : r_safe ev c f -> forall (s : rst W) (t : Qc) (x : list Qc), used s -> length x = rc_n c -> (q_h s * rc_d c)%Qc <> 0%Qc ->
  solvable (q_ros (fst (q_init c true (w1_set t x false s)))) (q_h s * rc_d c)%Qc ->
  exists (s' : rst W) (a : postarg QcNum), w1_step ev c (w1_set t x false s) = (s', AAccepted a) /\ pa_h a = q_h s /\
   (pa_trunc a = false -> exists f0 k1 : list Qc, f t x = Ret f0 /\
     (forall i k, i < rc_n c -> k < rc_n c -> jac (q_ros s') i k = if i <? rc_n2 c then delta (rc_n2 c + i) k else if k <? rc_n2 c + rc_n1 c then difference f t x f0 i k else 0%Qc) /\
     q_t s' = (t + q_h s)%Qc /\ q_h s' = q_h s /\ w1_formula (rc_n c) (jac (q_ros s')) (q_h s * rc_d c) x f0 (q_h s) k1 (q_x s')).
Proof.
  intros SF s t x US LX NZ SO. pose proof (w1_restart ev c s t x US LX) as RE. destruct (w1_step ev c (w1_set t x false s)) as [s' o] eqn:E.
  destruct (w1_pass ev c f SF _ s' o (w1_reach_inv ev c f SF _ RE) E) as (s1 & f0 & EI & EF & (SJ & _) & K & Q). rewrite EI in SO. cbn [fst] in SO.
  destruct (Q NZ SO) as (k1 & next & a & EA & HA & HS & FO & TT). subst o. exists s', a. split; [reflexivity|]. split; [exact HA|]. intros TR. destruct (K a eq_refl) as [_ SM]. destruct (TT TR) as [A B].
  exists f0, k1. split; [exact EF|]. rewrite (same_jac _ _ SM), B. split; [exact (SJ eq_refl)|]. auto.
Qed.
Lemma sw_restart_ok : r_safe ev c f -> forall (s : rst W) (t : Qc) (x : list Qc) (s1 : rst W), used s -> length x = rc_n c -> (q_h s * rc_d c)%Qc <> 0%Qc ->
  sw_set c t x false s = (s1, Ret tt) -> solvable (q_ros (fst (q_init c false s1))) (q_h s * rc_d c)%Qc ->
  (forall s' o, sw_attempt ev c true s1 = (s', o) -> o <> AThrow /\ o <> AUb) /\
  (forall fuel s' l a, sw_step ev c fuel s1 = (s', l, Some (AAccepted a)) -> pa_trunc a = false -> solvable (q_ros s') (q_h s * rc_d c)%Qc -> rc_n2 c = 0 \/ length l = 1 ->
   exists f0 k1 k2 : list Qc, f t x = Ret f0 /\
     (forall i k, i < rc_n c -> k < rc_n c -> jac (q_ros s') i k = if i <? rc_n2 c then delta (rc_n2 c + i) k else if k <? rc_n2 c + rc_n1 c then difference f t x f0 i k else 0%Qc) /\
     q_t s' = (t + pa_h a)%Qc /\ (length l = 1 -> pa_h a = q_h s) /\
     sw_formula (rc_n c) (jac (q_ros s')) (q_h s * rc_d c) (pa_h a * rc_d c) f t x f0 (pa_h a) k1 k2 (q_x s')).
Proof.
  intros SF s t x s1 US LX NZ ES SO. cbn in ES. injection ES as <-. pose proof (sw_restart ev c s t x US LX) as RE. cbn [sw_set fst] in RE. split.
  - intros s' o E. destruct (sw_first ev c f SF _ s' o RE NZ SO E) as (A & B & _). auto.
  - intros fuel s' l a E TR SO' LL. destruct (sw_step_ok ev c f SF _ fuel s' l a RE E TR NZ SO' LL) as (f0 & k1 & k2 & EF & (SJ & _) & TT & HH & FO & _). exists f0, k1, k2. split; [exact EF|]. split; [exact (SJ eq_refl)|]. auto.
Qed.
(** what an exception leaves behind *)
Lemma q_init_tx always s s' o : q_init c always s = (s', o) -> q_t s' = q_t s /\ q_x s' = q_x s /\ q_h s' = q_h s.
Proof.
  unfold q_init, rfail. set (s1 := if q_k s =? 0 then _ else _). assert (Q : q_t s1 = q_t s /\ q_x s1 = q_x s /\ q_h s1 = q_h s) by (unfold s1; destruct (q_k s =? 0); auto).
  match goal with |- match ?oo with _ => _ end = _ -> _ => destruct oo as [f0| |] end; [|intros E; injection E as <- _; exact Q|intros E; injection E as <- _; exact Q].
  destruct (ros_init _ _ _ _ _ _ _ _ _) as [r oo]. intros E. injection E as <- _. auto.
Qed.
Lemma w1_throw_keeps (s s' : rst W) : w1_step ev c s = (s', AThrow) -> q_t s' = q_t s /\ q_x s' = q_x s /\ q_h s' = q_h s.
Proof.
  unfold w1_step, qfail. destruct (q_init c true s) as [s1 o1] eqn:EI. pose proof (q_init_tx _ _ _ _ EI) as Q. clear EI.
  destruct o1; [|intros E; injection E as <-; exact Q|discriminate].
  destruct (rc_before _ _ _ _ _); [|intros E; injection E as <-; exact Q|discriminate].
  destruct (ev_start _ _ _ _); [|intros E; injection E as <-; exact Q|discriminate].
  destruct (w1_next _ _ _ _ _ _) as [[r2 next]| |]; [|intros E; injection E as <-; exact Q|discriminate].
  cbn [fst snd]. destruct (ev_end _ _ _ _ _) as [[w3 er]| |]; [discriminate|intros E; injection E as <-; exact Q|discriminate].
Qed.
(** a throw of SW2(4) leaves the time and state the step started from, unless it comes from the right-hand side at the point where an event has cut the step *)
Lemma attempt_throw_keeps b (s s' : rst W) : sw_attempt ev c b s = (s', AThrow) ->
  (q_t s' = q_t s /\ q_x s' = q_x s) \/ (exists x2 t2 w w' e, ev_end ev (q_x s) x2 t2 w = Ret (w', e) /\ ev_trunc e = true /\ q_t s' = ev_t e /\ q_x s' = ev_x e /\ rc_rhs c w' (ev_t e) (ev_x e) = Throw).
Proof.
  unfold sw_attempt, qfail. destruct (if b then q_init c false s else (s, Ret tt)) as [s1 o1] eqn:EI.
  assert (Q : q_t s1 = q_t s /\ q_x s1 = q_x s /\ q_h s1 = q_h s) by (destruct b; [exact (q_init_tx _ _ _ _ EI)|injection EI as <- _; auto]). clear EI. destruct Q as (QT & QX & _). rewrite QT, QX.
  destruct o1; [|intros E; injection E as <-; auto|discriminate].
  destruct (rc_before _ _ _ _ _); [|intros E; injection E as <-; auto|discriminate].
  destruct (ev_start _ _ _ _) as [w2| |]; [|intros E; injection E as <-; auto|discriminate].
  destruct (sw_stages _ _ _ _ _ _ _ _) as [[[[r1 k1] k2] next]| |]; [|intros E; injection E as <-; auto|discriminate].
  destruct (rc_rhs c w2 _ _) as [f1| |]; [|intros E; injection E as <-; auto|discriminate].
  destruct (if rc_nocheck c then Ret (r1, 0%Qc) else _) as [[r2 err]| |]; [|intros E; injection E as <-; auto|discriminate].
  destruct (if rc_nocheck c then (q_h s1, true, false) else _) as [[h' accept] change]. cbv zeta. destruct accept.
  - destruct (ev_end _ _ _ _ _) as [[w3 er]| |] eqn:EE; [|intros E; injection E as <-; auto|discriminate].
    destruct (ev_trunc er) eqn:TR.
    + destruct (rc_rhs c w3 (ev_t er) (ev_x er)) eqn:ER; [destruct (_ && _); discriminate| |discriminate]. intros E; injection E as <-. right. exists next, (q_t s + q_h s1)%Qc, w2, w3, er. auto.
    + destruct (_ && _); discriminate.
  - destruct (_ && _); discriminate.
Qed.
End Rex.
(** a second attempt after the very first step has thrown in the right-hand side *)
Lemma update_new hd : snd (ros_update hd ros_new) = Ret tt /\ ro_m (fst (ros_update hd ros_new)) = 0.
Proof. unfold ros_update. destruct (Qceqb (ro_hd ros_new) hd); [split; reflexivity|]. split; reflexivity. Qed.
Lemma qcpy_same n (v : list Qc) : length v = n -> qcpy (zeros n) v = Ret v.
Proof. intros L. apply (vcpy_ok (N:=QcNum)). unfold zeros. etransitivity; [apply repeat_length|symmetry; exact L]. Qed.
Lemma w1_retry {W} (ev : events QcNum W) (c c' : rcfg W) f (w : W) (h t : Qc) (x : list Qc) : r_safe ev c' f -> rc_n c = rc_n c' -> length x = rc_n c' -> rc_rhs c w t x = Throw ->
  exists s1, w1_step ev c (w1_set t x false (q_setStep h (q_new w))) = (s1, AThrow) /\ q_t s1 = t /\ q_x s1 = x /\ snd (w1_step ev c' s1) = AUb.
Proof.
  intros (NP & GR & RF & BF & ES & _) NC LX TH. unfold w1_step at 1. unfold q_init at 1. cbn [w1_set q_setStep q_new q_k q_w q_t q_x q_h q_f0 q_ros Nat.eqb orb]. rewrite TH. cbn [rfail qfail]. eexists. split; [reflexivity|]. split; [reflexivity|]. split; [reflexivity|].
  assert (NP' : 0 < rc_n c') by (unfold rc_n; lia). destruct (GR t x LX) as (f0 & EF & LF).
  unfold w1_step, q_init. cbn [q_k q_w q_t q_x q_h q_f0 q_ros]. rewrite NC. destruct (rc_n c' =? 0) eqn:Z; [apply Nat.eqb_eq in Z; lia|]. cbn [orb]. rewrite RF, EF. cbn [rfail]. unfold ros_init. pose proof (update_new (h * rc_d c')%Qc) as (U1 & U2).
  destruct (ros_update (h * rc_d c') ros_new) as [r o]. cbn [fst snd] in U1, U2. subst o. cbn [qfail q_t q_x q_h q_f0 q_k q_ros q_w]. destruct (BF t x f0 w) as (w1 & ->). cbn [qfail]. destruct (ES x t w1) as (w2 & ->). cbn [qfail].
  unfold w1_next. rewrite (qcpy_same (rc_n c') f0 LF). cbn [obind]. unfold q_solve. rewrite U2. change (@length Qc f0 = rc_n c') in LF. rewrite LF. destruct (0 <? rc_n c') eqn:P; [|apply Nat.ltb_ge in P; lia]. reflexivity.
Qed.
Lemma sw_retry {W} (ev : events QcNum W) (c c' : rcfg W) f (w : W) (h t : Qc) (x : list Qc) (fuel : nat) : r_safe ev c' f -> rc_n c = rc_n c' -> length x = rc_n c' -> rc_rhs c w t x = Throw -> 0 < fuel ->
  exists s1, sw_step ev c fuel (fst (sw_set c t x false (q_setStep h (q_new w)))) = (s1, [], Some AThrow) /\ q_t s1 = t /\ q_x s1 = x /\ snd (sw_step ev c' fuel s1) = Some AUb.
Proof.
  intros (NP & GR & RF & BF & ES & _) NC LX TH FU. destruct fuel as [|fuel]; [lia|]. unfold sw_step. cbn [sw_loop]. unfold sw_attempt at 1. unfold q_init at 1. cbn [sw_set fst q_setStep q_new q_k q_w q_t q_x q_h q_f0 q_ros Nat.eqb orb]. rewrite TH. cbn [rfail qfail]. eexists. split; [reflexivity|]. split; [reflexivity|]. split; [reflexivity|].
  assert (NP' : 0 < rc_n c') by (unfold rc_n; lia).
  unfold sw_attempt, q_init. cbn [q_k q_w q_t q_x q_h q_f0 q_ros]. rewrite NC. destruct (rc_n c' =? 0) eqn:Z; [apply Nat.eqb_eq in Z; lia|]. cbn [orb rfail]. unfold ros_init. pose proof (update_new (h * rc_d c')%Qc) as (U1 & U2).
  destruct (ros_update (h * rc_d c') ros_new) as [r o]. cbn [fst snd] in U1, U2. subst o. cbn [qfail q_t q_x q_h q_f0 q_k q_ros q_w]. destruct (BF t x (vresize (rc_n c') []) w) as (w1 & ->). cbn [qfail]. destruct (ES x t w1) as (w2 & ->). cbn [qfail].
  assert (LV : length (vresize (rc_n c') []) = rc_n c') by (unfold vresize, zeros; rewrite app_length, firstn_nil, repeat_length; cbn; lia).
  unfold sw_stages. rewrite (qcpy_same (rc_n c') _ LV). cbn [obind]. unfold q_solve at 1. rewrite U2, LV. destruct (0 <? rc_n c') eqn:P; [|apply Nat.ltb_ge in P; lia]. reflexivity.
Qed.
