(** ConvFacts2.v - over the reals: all results of a step, histories of the fixed step solver and of the adaptive solver as paths of textbook steps. *)
From Coq Require Import List Arith Lia Bool ZArith QArith Qcanon Reals Lra.
From Verif Require Import Base BaseFacts VecModel VOps NewtFacts NewtFacts4 RkModel RkSpec RkFacts RkFacts2 RkFacts3 StepModel StepSpec ConvSpec ConvFacts.
Import ListNotations.
Local Open Scope R_scope.

Definition tstep (co : coeffs RNum) (stages n ix : nat) (F : R -> list R -> Outcome (list R)) (h : R) (s s' : R * list R) : Prop :=
  fst s' = fst s + h /\ exists evals k, stagesR co stages n F (snd s) (fst s) h evals k /\ resultR co stages n ix (snd s) h k (snd s').
Inductive path (co : coeffs RNum) (stages n ix : nat) (F : R -> list R -> Outcome (list R)) : R * list R -> list R -> R * list R -> Prop :=
| path_nil s : path co stages n ix F s [] s
| path_cons s h s1 l s2 : tstep co stages n ix F h s s1 -> path co stages n ix F s1 l s2 -> path co stages n ix F s (h :: l) s2.

Lemma compute_allR co stages n nx f x1 t1 h (o : output RNum) :
  wf_table co stages nx -> shortcut_ok co stages -> good_rhs (N:=RNum) n f -> length x1 = n -> shaped o stages n nx ->
  exists o' evals, rk_compute (N:=RNum) o co f x1 t1 h = Ret (o', evals) /\ shaped o' stages n nx /\
    stagesR co stages n f x1 t1 h evals (o_k o') /\
    (forall ix, (ix < nx)%nat -> resultR co stages n ix x1 h (o_k o') (nth ix (o_x2 o') [])).
Proof.
  intros WF SC GR LX SH. destruct (ConvFacts.compute_ok co stages n nx f x1 t1 h WF GR LX o SH) as [o' [evals [E [S' [TS [TR TL]]]]]].
  destruct SC as [NEG|[ix [EL [ST RR]]]].
  - exists o', evals. split; [assumption|]. split; [assumption|]. split; [assumption|]. intros ix Hix. apply TR; [assumption|lia].
  - exists o', evals. split; [assumption|]. split; [assumption|]. split; [assumption|].
    pose proof (fsal_visible (N:=RNum) co stages n nx ix f x1 t1 h o LX ST EL RR SH) as FV.
    destruct (ConvFacts.compute_ok (no_shortcut co) stages n nx f x1 t1 h) with (o := o) as [o2 [ev2 [E2 [S2 [TS2 [TR2 _]]]]]]; [exact WF|exact GR|exact LX|exact SH|].
    change (nT RNum) with R in *. rewrite E, E2 in FV. simpl in FV. injection FV as F1 F2 F3. rewrite F1, F2. intros i Hi. apply (TR2 i Hi). simpl. lia.
Qed.

Section Fixed.
Context {W : Type} (F : W -> R -> list R -> Outcome (list R)) (co : coeffs RNum) (stages n : nat) (h : R).
Hypothesis WF : wf_table co stages 1.
Hypothesis SC : shortcut_ok co stages.
Definition readyR (s : rkst RNum W) : Prop :=
  length (rk_x s) = n /\ (out_is_empty (rk_out s) = true \/ (rk_h s = Some h /\ shaped (rk_out s) stages n 1)).
Lemma stages_posR : (0 < stages)%nat. Proof. apply WF. Qed.
Lemma rk_step_okR s : good_rhs (N:=RNum) n (F (rk_w s)) -> readyR s ->
  exists s', rk_step (N:=RNum) no_events F co n h s = Ret (s', rk_h s, mkPost (N:=RNum) h true false false 0 None 0%Z) /\ readyR s' /\ rk_w s' = rk_w s /\
    tstep co stages n 0 (F (rk_w s)) h (rk_t s, rk_x s) (rk_t s', rk_x s').
Proof.
  intros GR [Lx RD]. unfold rk_step.
  assert (RI : rk_t (rk_init (N:=RNum) co n h s) = rk_t s /\ rk_x (rk_init (N:=RNum) co n h s) = rk_x s /\ rk_w (rk_init (N:=RNum) co n h s) = rk_w s /\ rk_h (rk_init (N:=RNum) co n h s) = Some h /\ shaped (rk_out (rk_init (N:=RNum) co n h s)) stages n 1).
  { unfold rk_init. destruct RD as [RD|[RH RS]].
    - rewrite RD. simpl. repeat (split; [reflexivity|]). assert (LC : (length (co_c co) + 1)%nat = stages) by apply WF. rewrite <- LC. apply out_new_shaped.
    - assert (OE : out_is_empty (rk_out s) = false).
      { unfold out_is_empty. destruct RS as [L _]. pose proof stages_posR. destruct (o_k (rk_out s)); [simpl in L; lia|reflexivity]. }
      rewrite OE. auto. }
  destruct RI as [R1 [R2 [R3 [R4 R5]]]]. rewrite R4, R1, R2, R3. simpl ev_start. cbn [obind].
  destruct (compute_allR co stages n 1 (F (rk_w s)) (rk_x s) (rk_t s) h _ WF SC GR Lx R5) as [o' [evals [E [S' [TS TR]]]]].
  change (nT RNum) with R in *. rewrite E. cbn [obind fst snd]. destruct S' as [Sk [Sx [Sb [Uk Ux]]]].
  rewrite (rd_ok (A:=list R) (o_x2 o') 0 []) by (change (0 < @length (list (nT RNum)) (o_x2 o'))%nat; rewrite Sx; lia). cbn [obind]. simpl ev_end. cbn [obind].
  rewrite (wr_ok (A:=list R) (o_x2 o') 0) by (change (0 < @length (list (nT RNum)) (o_x2 o'))%nat; rewrite Sx; lia). cbn [obind].
  eexists. split; [reflexivity|]. cbn [rk_x rk_out rk_h rk_w rk_t ev_x ev_t].
  assert (TR0 : resultR co stages n 0 (rk_x s) h (o_k o') (nth 0 (o_x2 o') [])) by (apply TR; lia).
  split; [|split; [reflexivity|split; [reflexivity|exists evals, (o_k o'); split; assumption]]].
  split; [exact (proj1 TR0)|]. right. split; [reflexivity|]. split; [assumption|]. split; [exact (eq_trans (upd_length (A:=list R) (o_x2 o') 0 (rk_x s)) Sx)|]. split; [assumption|].
  split; [assumption|]. cbn [o_x2]. intros v V. destruct (In_upd _ _ _ _ V) as [->|V']; [exact Lx|exact (Ux _ V')].
Qed.
Lemma rk_steps_path w : good_rhs (N:=RNum) n (F w) -> forall count s, rk_w s = w -> readyR s ->
  exists s' posts, rk_steps (N:=RNum) no_events F co n h count s = Ret (s', posts) /\ readyR s' /\
    path co stages n 0 (F w) (rk_t s, rk_x s) (repeat h count) (rk_t s', rk_x s').
Proof.
  intros GR. induction count as [|c I]; intros s EW RD.
  - exists s, []. split; [reflexivity|]. split; [assumption|]. constructor.
  - subst w. destruct (rk_step_okR s GR RD) as [s1 [E [RD1 [W1 TS]]]].
    destruct (I s1 W1 RD1) as [s2 [posts [E2 [RD2 P2]]]].
    exists s2, (mkPost (N:=RNum) h true false false 0 None 0%Z :: posts).
    split; [simpl; rewrite E; cbn [obind]; rewrite E2; reflexivity|]. split; [assumption|]. econstructor; eassumption.
Qed.
Lemma fixed_path w t0 x0 s0 count : good_rhs (N:=RNum) n (F w) -> rk_w s0 = w -> length x0 = n ->
  exists s' posts, rk_steps (N:=RNum) no_events F co n h count (rk_set (N:=RNum) no_events t0 x0 s0) = Ret (s', posts) /\
    path co stages n 0 (F w) (t0, x0) (repeat h count) (rk_t s', rk_x s').
Proof.
  intros GR EW LX. destruct (rk_steps_path w GR count (rk_set (N:=RNum) no_events t0 x0 s0)) as [s' [posts [E [_ P]]]].
  - exact EW.
  - split; [exact LX|]. left. reflexivity.
  - exists s', posts. split; assumption.
Qed.
End Fixed.

(** The adaptive solver, without events, for any controller and any norm *)
Section Adaptive.
Context {W : Type} (F : W -> R -> list R -> Outcome (list R)) (c : erkcfg RNum) (stages : nat) (w : W).
Hypothesis WF : wf_table (e_co c) stages 2.
Hypothesis SC : shortcut_ok (e_co c) stages.
Hypothesis MD : (e_mode c < 2)%nat.
Hypothesis GR : good_rhs (N:=RNum) (e_n c) (F w).
Definition readyA (s : rkst RNum W) : Prop :=
  length (rk_x s) = e_n c /\ rk_w s = w /\ (out_is_empty (rk_out s) = true \/ shaped (rk_out s) stages (e_n c) 2).
Lemma erk_init_ok s : readyA s -> rk_t (erk_init (N:=RNum) c s) = rk_t s /\ rk_x (erk_init (N:=RNum) c s) = rk_x s /\ rk_w (erk_init (N:=RNum) c s) = w /\ shaped (rk_out (erk_init (N:=RNum) c s)) stages (e_n c) 2.
Proof.
  intros [Lx [EW RD]]. unfold erk_init. destruct RD as [RD|RS].
  - rewrite RD. simpl. repeat (split; [reflexivity || assumption|]). assert (LC : (length (co_c (e_co c)) + 1)%nat = stages) by apply WF. rewrite <- LC. apply out_new_shaped.
  - assert (OE : out_is_empty (rk_out s) = false).
    { unfold out_is_empty. destruct RS as [L _]. assert (0 < stages)%nat by apply WF. destruct (o_k (rk_out s)); [simpl in L; lia|reflexivity]. }
    rewrite OE. auto.
Qed.
Lemma erk_attempt_path s s' r : readyA s -> erk_attempt (N:=RNum) no_events F c s = (s', r) ->
  match r with
  | ARejected a => readyA s' /\ rk_t s' = rk_t s /\ rk_x s' = rk_x s
  | AAccepted a => readyA s' /\ tstep (e_co c) stages (e_n c) (e_mode c) (F w) (pa_h a) (rk_t s, rk_x s) (rk_t s', rk_x s')
  | _ => True
  end.
Proof.
  intros RD E. destruct (erk_init_ok s RD) as [R1 [R2 [R3 R5]]]. destruct RD as [Lx [EW _]]. unfold erk_attempt in E. rewrite R1, R2, R3 in E.
  destruct (rk_h (erk_init (N:=RNum) c s)) as [h|]; [|injection E as <- <-; exact I].
  simpl ev_start in E. unfold fail at 1 in E.
  destruct (compute_allR (e_co c) stages (e_n c) 2 (F w) (rk_x s) (rk_t s) h _ WF SC GR Lx R5) as [o' [evals [EC [S' [TS TR]]]]].
  change (nT RNum) with R in *. rewrite EC in E. unfold fail at 1 in E. cbn [fst snd] in E. pose proof S' as SH. destruct S' as [Sk [Sx [Sb [Uk Ux]]]].
  change (nT RNum) with R in *.
  rewrite (rd_ok (A:=list R) (o_x2 o') (e_mode c) []) in E by (exact (eq_ind_r (fun m => (e_mode c < m)%nat) MD Sx)). unfold fail at 1 in E.
  destruct (erk_error (N:=RNum) c o') as [err| |]; unfold fail at 1 in E; [|injection E as <- <-; exact I|injection E as <- <-; exact I].
  destruct (if e_nocheck c then (h, true, false) else e_sc c h err) as [[h' accept] change].
  assert (TR0 : resultR (e_co c) stages (e_n c) (e_mode c) (rk_x s) h (o_k o') (nth (e_mode c) (o_x2 o') [])) by (apply TR; lia).
  destruct accept.
  - simpl ev_end in E. unfold fail at 1 in E.
    rewrite (wr_ok (A:=list R) (o_x2 o') (e_mode c)) in E by (exact (eq_ind_r (fun m => (e_mode c < m)%nat) MD Sx)). unfold fail in E.
    match type of E with (if ?b then _ else _) = _ => destruct b end; injection E as <- <-; [exact I|]. cbn [rk_x rk_out rk_h rk_w rk_t ev_x ev_t pa_h].
    split; [|split; [reflexivity|exists evals, (o_k o'); split; assumption]].
    split; [exact (proj1 TR0)|]. split; [reflexivity|]. right. split; [assumption|]. split; [exact (eq_trans (upd_length (A:=list R) (o_x2 o') (e_mode c) (rk_x s)) Sx)|]. split; [assumption|].
    split; [assumption|]. cbn [o_x2]. intros v V. destruct (In_upd _ _ _ _ V) as [->|V']; [exact Lx|exact (Ux _ V')].
  - match type of E with (if ?b then _ else _) = _ => destruct b end; injection E as <- <-; [exact I|]. cbn [rk_x rk_out rk_h rk_w rk_t].
    split; [|split; reflexivity]. split; [exact Lx|]. split; [reflexivity|]. right. exact SH.
Qed.
Lemma erk_step_path fuel : forall s s' posts a, readyA s -> erk_step (N:=RNum) no_events F c fuel s = (s', posts, Some (AAccepted a)) ->
  readyA s' /\ tstep (e_co c) stages (e_n c) (e_mode c) (F w) (pa_h a) (rk_t s, rk_x s) (rk_t s', rk_x s').
Proof.
  induction fuel as [|k I]; intros s s' posts a RD E; [simpl in E; discriminate E|]. simpl in E.
  destruct (erk_attempt (N:=RNum) no_events F c s) as [s1 r] eqn:EA. pose proof (erk_attempt_path s s1 r RD EA) as H.
  destruct r as [| | |b|b]; try (injection E as _ _ E; discriminate E).
  - destruct H as [RD1 [T1 X1]]. destruct (erk_step (N:=RNum) no_events F c k s1) as [[s2 l] r] eqn:E2. injection E as <- _ ->.
    rewrite <- T1, <- X1. exact (I s1 s2 l a RD1 E2).
  - injection E as <- _ <-. exact H.
Qed.
Lemma adaptive_path s l s' : adaptive_run F c s l s' -> readyA s -> path (e_co c) stages (e_n c) (e_mode c) (F w) (rk_t s, rk_x s) l (rk_t s', rk_x s').
Proof.
  induction 1 as [s|s fuel s1 posts a l s2 E _ I]; intros RD; [constructor|].
  destruct (erk_step_path fuel s s1 posts a RD E) as [RD1 TS]. econstructor; [exact TS|]. apply I. exact RD1.
Qed.
End Adaptive.
