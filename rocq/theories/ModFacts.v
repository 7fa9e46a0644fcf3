From Coq Require Import List Arith Bool ZArith QArith Qcanon Lia Lqa.
From Verif Require Import Base BaseFacts VecModel VOps RkModel RkSpec RkFacts RkFacts2 RkFacts3 RkFacts4 RkFacts6 EvModel EvSpec EvFacts3 EvFacts4 ModModel ModSpec.
Import ListNotations.
Local Open Scope nat_scope.

Section Step.
Context {W : Type} (ev : events QcNum W) (f : W -> Qc -> list Qc -> Outcome (list Qc)) (co : coeffs QcNum) (stages n : nat) (h : Qc).
Hypothesis WF : wf_table co stages 1.
Hypothesis SC : shortcut_ok co stages.
(** A step with any event controller: the textbook step, then the controller's answer. *)
Lemma rk_step_ev (s : rkst QcNum W) w1 : ready stages n h s -> ev_start ev (rk_x s) (rk_t s) (rk_w s) = Ret w1 -> good_rhs (N:=QcNum) n (f w1) ->
  exists x2, textbook_step co stages n (f w1) h (rk_t s, rk_x s) ((rk_t s + h)%Qc, x2) /\
    (ev_end ev (rk_x s) x2 (rk_t s + h)%Qc w1 = Throw -> rk_step ev f co n h s = Throw) /\
    (ev_end ev (rk_x s) x2 (rk_t s + h)%Qc w1 = UB -> rk_step ev f co n h s = UB) /\
    forall w2 er, ev_end ev (rk_x s) x2 (rk_t s + h)%Qc w1 = Ret (w2, er) -> length (ev_x er) = n ->
      exists s', rk_step ev f co n h s = Ret (s', rk_h s, mkPost (N:=QcNum) h true false (ev_trunc er) 0%Qc (ev_izf er) (ev_type er)) /\
        ready stages n h s' /\ rk_t s' = ev_t er /\ rk_x s' = ev_x er /\ rk_w s' = w2.
Proof.
  intros [Lx RD] ES GR. unfold rk_step.
  assert (RI : rk_t (rk_init (N:=QcNum) co n h s) = rk_t s /\ rk_x (rk_init (N:=QcNum) co n h s) = rk_x s /\ rk_w (rk_init (N:=QcNum) co n h s) = rk_w s /\ rk_h (rk_init (N:=QcNum) co n h s) = Some h /\ shaped (rk_out (rk_init (N:=QcNum) co n h s)) stages n 1).
  { unfold rk_init. destruct RD as [RD|[RH RS]].
    - rewrite RD. simpl. repeat (split; [reflexivity|]). assert (LC : length (co_c co) + 1 = stages) by apply WF. rewrite <- LC. apply out_new_shaped.
    - assert (OE : out_is_empty (rk_out s) = false).
      { unfold out_is_empty. destruct RS as [L _]. pose proof (stages_pos co stages WF). destruct (o_k (rk_out s)); [simpl in L; lia|reflexivity]. }
      rewrite OE. auto. }
  destruct RI as [R1 [R2 [R3 [R4 R5]]]]. rewrite R4, R1, R2, R3, ES. cbn [obind].
  destruct (compute_all co stages n 1 (f w1) (rk_x s) (rk_t s) h _ WF SC GR Lx R5) as [o' [evals [E [S' [TS TR]]]]].
  change (nT QcNum) with Qc in *. rewrite E. cbn [obind fst snd]. destruct S' as [Sk [Sx [Sb [Uk Ux]]]].
  rewrite (rd_ok (A:=list Qc) (o_x2 o') 0 []) by (change (0 < @length (list (nT QcNum)) (o_x2 o')); rewrite Sx; lia). cbn [obind].
  assert (TR0 : textbook_result co stages n 0 (rk_x s) h (o_k o') (nth 0 (o_x2 o') [])) by (apply TR; lia).
  exists (nth (A:=list Qc) 0 (o_x2 o') (@nil Qc)). split; [split; [reflexivity|exists evals, (o_k o'); split; assumption]|].
  change (nadd QcNum (rk_t s) h) with (rk_t s + h)%Qc.
  split; [intros EE; change (nT QcNum) with Qc in *; rewrite EE; reflexivity|]. split; [intros EE; change (nT QcNum) with Qc in *; rewrite EE; reflexivity|].
  intros w2 er EE LE. change (nT QcNum) with Qc in *. rewrite EE. cbn [obind].
  rewrite (wr_ok (A:=list Qc) (o_x2 o') 0) by (rewrite Sx; lia). cbn [obind].
  eexists. split; [reflexivity|]. split; [|split; [reflexivity|split; reflexivity]].
  split; [exact LE|]. right. split; [reflexivity|]. split; [assumption|]. split; [exact (eq_trans (upd_length (A:=list Qc) (o_x2 o') 0 (rk_x s)) Sx)|]. split; [assumption|].
  split; [assumption|]. cbn [o_x2 rk_out]. intros v V. destruct (In_upd _ _ _ _ V) as [->|V']; [exact Lx|exact (Ux _ V')].
Qed.
End Step.

(** * The ball *)
Section Ball.
Context (b : ball QcNum).
Notation bm := (ball_model b).
(** The controller is in use, with the height y recorded as the start of the next step and the event state st. *)
Definition cst (c : ctl QcNum) (y : Qc) (st : Z) : Prop :=
  c_clean c = false /\ c_haveZf c = true /\ c_rec c = false /\ c_zf1 c = [y] /\ c_flags c = [1%Z] /\ c_state c = [st] /\ (st = 0%Z \/ (st = 1%Z /\ (0 < y)%Qc)).
Definition cok (c : ctl QcNum) (y : Qc) : Prop := c_clean c = true \/ exists st, cst c y st.
Lemma ball_cstart c y v p t : (0 <= y)%Qc -> cok c y -> exists c' st, c_start bm p [y; v] t c = Ret c' /\ cst c' y st /\ c_t1 c' = t.
Proof.
  intros Y [C|[st [C [H1 [H2 [H3 [H4 [H5 H6]]]]]]]].
  - unfold c_start. rewrite C. cbn -[sgnf]. eexists. eexists. split; [reflexivity|]. split; [|reflexivity].
    repeat (split; [reflexivity|]). unfold sgnf. cbn. destruct (Qcleb y 0) eqn:E; [left; reflexivity|right; split; [reflexivity|]].
    apply Qcleb_gt in E. exact E.
  - unfold c_start. cbn [c_clean]. rewrite C. cbn [negb]. eexists. exists st. split; [reflexivity|]. split; [|reflexivity].
    unfold cst. cbn. auto 10.
Qed.
Lemma ball_cend_none c y v y2 v2 p t2 st : cst c y st -> (0 <= y2)%Qc -> (st = 1%Z -> (0 < y2)%Qc) ->
  exists c', c_end bm p [y; v] [y2; v2] t2 c = Ret (p, c', mkEvres (N:=QcNum) [y2; v2] t2 false None 0%Z) /\ cst c' y2 st.
Proof.
  intros [C [H1 [H2 [H3 [H4 [H5 H6]]]]]] Y2 S1. unfold c_end. rewrite H1. cbn [negb]. cbn [zeroFunctions ball_model]. unfold ball_zero. cbn [rdat nth_error obind].
  unfold changed. rewrite H3, H4, H5. cbn -[xz].
  assert (X : xz (N:=QcNum) 1 st y2 = false).
  { unfold xz. cbn. destruct H6 as [->|[-> P1]]; cbn.
    - apply Qcltb_ge. exact Y2.
    - rewrite orb_false_r. apply Qcleb_gt. apply S1. reflexivity. }
  rewrite X. cbn. eexists. split; [reflexivity|]. unfold cst. cbn. rewrite ?C, ?H1, ?H2, ?H4, ?H5. repeat (split; [reflexivity|]).
  destruct H6 as [->|[-> P1]]; [left; reflexivity|right; split; [reflexivity|apply S1; reflexivity]].
Qed.
(** A first landing exactly at the end of a step fails. *)
Lemma ball_cend_touch c y v v2 p t2 : cst c y 1%Z -> c_end bm p [y; v] [0%Qc; v2] t2 c = Throw.
Proof.
  intros [C [H1 [H2 [H3 [H4 [H5 [H6|[_ P1]]]]]]]]; [discriminate|]. unfold c_end. rewrite H1. cbn [negb]. cbn [zeroFunctions ball_model]. unfold ball_zero. cbn [rdat nth_error obind].
  unfold changed. rewrite H3, H4, H5. cbn.
  assert (Y0 : y <> 0%Qc) by (intro E; rewrite E in P1; discriminate).
  replace (y / (y - 0))%Qc with 1%Qc by (field; replace (y - 0)%Qc with y by ring; assumption). reflexivity.
Qed.
(** What switchPhaseState makes of the state at the crossing *)
Definition after_impact (v : Qc) (p : bool) : bool * list Qc :=
  if Qcltb (Qcabs v) (b_s b) then (true, [0%Qc; 0%Qc]) else if Qcltb v 0 then (p, [0%Qc; (v * - b_r b)%Qc]) else (true, [0%Qc; 0%Qc]).
Lemma ball_cend_event c y v y2 v2 p t2 st : cst c y st -> (0 <= y)%Qc -> (y2 < 0)%Qc ->
  let th := cross_time y y2 in
  let v' := between v v2 th in
  (0 <= th)%Qc /\ (th < 1)%Qc /\ between y y2 th = 0%Qc /\
  exists c' s, c_end bm p [y; v] [y2; v2] t2 c =
    Ret (fst (after_impact v' p), c', mkEvres (N:=QcNum) (snd (after_impact v' p)) (c_t1 c + (t2 - c_t1 c) * th)%Qc true (Some 0) s) /\ cst c' 0%Qc 0%Z.
Proof.
  intros [C [H1 [H2 [H3 [H4 [H5 H6]]]]]] Y Y2 th v'.
  assert (DP : (0 < y - y2)%Qc) by qclra.
  assert (D : (y - y2)%Qc <> 0%Qc) by (intro E; rewrite E in DP; discriminate).
  assert (TE : (th * (y - y2) = y)%Qc) by (unfold th, cross_time; field; assumption).
  assert (T0 : (0 <= th)%Qc) by (apply Qcnot_lt_le; intro L; assert (y < 0)%Qc by (rewrite <- TE; qcnra); qclra).
  assert (T1 : (th < 1)%Qc) by (apply Qcnot_le_lt; intro L; assert (y - y2 <= y)%Qc by (rewrite <- TE at 2; qcnra); qclra).
  assert (Z0 : between y y2 th = 0%Qc) by (unfold between; replace (y * (1 - th) + y2 * th)%Qc with (y - th * (y - y2))%Qc by ring; rewrite TE; ring).
  split; [assumption|]. split; [assumption|]. split; [assumption|].
  unfold c_end. rewrite H1. cbn [negb]. cbn [zeroFunctions ball_model]. unfold ball_zero. cbn [rdat nth_error obind].
  unfold changed. rewrite H3, H4, H5. cbn -[xz].
  assert (X : xz (N:=QcNum) 1 st y2 = true).
  { unfold xz. cbn. destruct H6 as [->|[-> P1]]; cbn.
    - apply Qcltb_lt. exact Y2.
    - rewrite orb_false_r. apply Qcleb_le. apply Qclt_le_weak. exact Y2. }
  rewrite X. cbn -[sgn]. change (y / (y - y2))%Qc with th.
  rewrite (proj2 (Qcltb_lt th 1) T1). cbn -[sgn].
  rewrite H2. cbn [obind]. replace (v2 * th + v * (1 - th))%Qc with v' by (unfold v', between; ring).
  replace (y2 * th + y * (1 - th))%Qc with 0%Qc by (rewrite <- Z0; unfold between; ring).
  replace (y * (1 - th) + y2 * th)%Qc with 0%Qc by (rewrite <- Z0; reflexivity).
  unfold after_impact. change (Q2Qc 0) with 0%Qc.
  destruct (Qcltb (Qcabs v') (b_s b)); [|destruct (Qcltb v' 0)]; cbn -[sgn]; (eexists; eexists; split; [reflexivity|]); unfold cst; cbn; rewrite C; auto 10.
Qed.

(** * Steps *)
Context (co : coeffs QcNum) (stages : nat) (h : Qc).
Hypothesis WF : wf_table co stages 1.
Hypothesis SC : shortcut_ok co stages.
Hypothesis HP : (0 < h)%Qc.
Notation evs := (linear_events (ball_model b)).
Notation rhsw := (fun w : ctl QcNum * bool => ball_rhs b (snd w)).
(** Between steps *)
Definition inv (s : bstate) (y v : Qc) (p : bool) : Prop :=
  ready stages 2 h s /\ rk_x s = [y; v] /\ (0 <= y)%Qc /\ snd (rk_w s) = p /\ cok (fst (rk_w s)) y.
(** No landing has to be noticed exactly: the ball starts on the plane, or has already touched it. *)
Definition calm (s : bstate) (y : Qc) : Prop := (c_clean (fst (rk_w s)) = true /\ y = 0%Qc) \/ (c_clean (fst (rk_w s)) = false /\ c_state (fst (rk_w s)) = [0%Z]).
Lemma ball_good p : good_rhs (N:=QcNum) 2 (ball_rhs b p).
Proof.
  intros t x L. change (nT QcNum) with Qc in *. destruct x as [|y [|v [|? ?]]]; try discriminate. unfold ball_rhs. destruct p; cbn; eexists; split; reflexivity.
Qed.
(** The outcome of a step from height y, speed v that proposes y2, v2 *)
Inductive outcome (s : bstate) (y v y2 v2 : Qc) (p : bool) : Prop :=
| OFull s' a : rk_step evs rhsw co 2 h s = Ret (s', rk_h s, a) -> inv s' y2 v2 p -> (0 <= y2)%Qc -> rk_t s' = (rk_t s + h)%Qc -> (calm s y -> calm s' y2) -> (~ calm s y -> (0 < y2)%Qc /\ ~ calm s' y2) -> outcome s y v y2 v2 p
| OLand : rk_step evs rhsw co 2 h s = Throw -> y2 = 0%Qc -> (0 < y)%Qc -> ~ calm s y -> outcome s y v y2 v2 p
| OEvent s' a th : rk_step evs rhsw co 2 h s = Ret (s', rk_h s, a) -> th = cross_time y y2 -> (0 <= th)%Qc -> (th < 1)%Qc -> (y2 < 0)%Qc ->
    rk_t s' = (rk_t s + h * th)%Qc -> rk_x s' = snd (after_impact (between v v2 th) p) ->
    (forall y' v' p', after_impact (between v v2 th) p = (p', [y'; v']) -> inv s' y' v' p') -> (forall y', calm s' y') -> outcome s y v y2 v2 p.
Lemma ball_step1 s y v p : inv s y v p ->
  exists y2 v2, textbook_step co stages 2 (ball_rhs b p) h (rk_t s, [y; v]) ((rk_t s + h)%Qc, [y2; v2]) /\ outcome s y v y2 v2 p.
Proof.
  intros [RD [EX [Y [EP CK]]]]. destruct (rk_w s) as [c p0] eqn:EW. cbn in EP, CK. subst p0.
  destruct (ball_cstart c y v p (rk_t s) Y CK) as [c1 [st [E1 [CS T1]]]].
  assert (ES : ev_start evs (rk_x s) (rk_t s) (rk_w s) = Ret (c1, p)) by (rewrite EX, EW; cbn [ev_start linear_events fst snd]; rewrite E1; reflexivity).
  assert (CALM : calm s y -> st = 0%Z).
  { unfold calm. rewrite EW. cbn [fst]. unfold c_start in E1. cbn [c_clean] in E1. intros [[CC Y0]|[CC SS]]; rewrite CC in E1; cbn -[sgnf] in E1; injection E1 as <-.
    - destruct CS as [_ [_ [_ [_ [_ [_ [?|[_ ?]]]]]]]]; [assumption|]. subst y. discriminate.
    - destruct CS as [_ [_ [_ [_ [_ [CS _]]]]]]. cbn in CS. congruence. }
  assert (NCALM : st <> 1%Z -> calm s y).
  { intros N1. unfold calm. rewrite EW. cbn [fst]. unfold c_start in E1. destruct (c_clean c) eqn:CC; cbn -[sgnf] in E1.
    - injection E1 as <-. destruct CS as [_ [_ [_ [_ [_ [CS _]]]]]]. cbn -[sgnf] in CS. left. split; [reflexivity|]. apply Qcle_antisym; [|assumption].
      unfold sgnf in CS. cbn in CS. destruct (Qcleb y 0) eqn:Q; [apply Qcleb_le; assumption|]. exfalso. apply N1. congruence.
    - injection E1 as <-. right. split; [reflexivity|]. destruct CS as [_ [_ [_ [_ [_ [CS [S0|[S1 _]]]]]]]]; [rewrite <- S0; exact CS|contradiction]. }
  destruct (rk_step_ev evs rhsw co stages 2 h WF SC s (c1, p) RD ES (ball_good p)) as [x2 [TS [FT [_ FR]]]]. cbn [snd] in TS.
  assert (L2 : length x2 = 2) by (destruct TS as [_ [ev' [k [_ [L _]]]]]; exact L).
  destruct x2 as [|y2 [|v2 [|? ?]]]; try discriminate. exists y2, v2. rewrite EX in *. split; [exact TS|].
  cbn [ev_end linear_events fst snd] in FT, FR.
  destruct (Qclt_le_dec y2 0) as [NEG|POS].
  - destruct (ball_cend_event c1 y v y2 v2 p (rk_t s + h)%Qc st CS Y NEG) as [T0 [TL [Z0 [c' [sg [E2 CS2]]]]]].
    assert (A : exists p' y' v', after_impact (between v v2 (cross_time y y2)) p = (p', [y'; v']) /\ y' = 0%Qc).
    { unfold after_impact. destruct (Qcltb _ _); [|destruct (Qcltb _ _)]; eexists; eexists; eexists; split; reflexivity. }
    destruct A as [p' [y' [v' [A Y']]]].
    rewrite E2, A in FR. cbn [obind fst snd] in FR. destruct (FR _ _ eq_refl eq_refl) as [s' [E3 [RD' [ET [EX' EW']]]]].
    cbn in ET, EX'. rewrite T1 in ET. eapply (OEvent _ _ _ _ _ _ s' _ _ E3 eq_refl); try eassumption.
    + change (rk_t s' = (rk_t s + h * cross_time y y2)%Qc). transitivity ((rk_t s : Qc) + ((rk_t s : Qc) + h - (rk_t s : Qc)) * cross_time y y2)%Qc; [exact ET|]. assert (RR : forall a q : Qc, (a + (a + h - a) * q = a + h * q)%Qc) by (intros; ring). exact (RR _ _).
    + rewrite A. exact EX'.
    + intros y1 v1 p1 A1. rewrite A in A1. injection A1 as <- <- <-. split; [assumption|]. split; [assumption|]. rewrite EW'. cbn. rewrite Y'. split; [apply Qcle_refl|]. split; [reflexivity|]. right. exists 0%Z. assumption.
    + intros y1. right. rewrite EW'. cbn. split; apply CS2.
  - destruct (Z.eq_dec st 1) as [S1|S1].
    + destruct (Qc_eq_dec y2 0) as [Z|NZ].
      * subst y2 st. apply OLand; [|reflexivity| |].
        -- apply FT. rewrite (ball_cend_touch c1 y v v2 p (rk_t s + h)%Qc CS). reflexivity.
        -- destruct CS as [_ [_ [_ [_ [_ [_ [?|[_ ?]]]]]]]]; [discriminate|assumption].
        -- intro CM. discriminate (CALM CM).
      * assert (P2 : (0 < y2)%Qc) by (apply Qcnot_le_lt; intro L; apply NZ; apply Qcle_antisym; assumption).
        destruct (ball_cend_none c1 y v y2 v2 p (rk_t s + h)%Qc st CS POS (fun _ => P2)) as [c' [E2 CS2]]. rewrite E2 in FR. cbn [obind] in FR.
        destruct (FR _ _ eq_refl eq_refl) as [s' [E3 [RD' [ET [EX' EW']]]]]. eapply (OFull _ _ _ _ _ _ s' _ E3); [|assumption|exact ET|intros CM; specialize (CALM CM); right; rewrite EW'; cbn; rewrite <- CALM; split; apply CS2|intros _; split; [assumption|]; unfold calm; rewrite EW'; cbn; destruct CS2 as [C1 [_ [_ [_ [_ [C2 _]]]]]]; rewrite C1, C2; intros [[? _]|[_ ?]]; [discriminate|congruence]].
        split; [assumption|]. split; [assumption|]. split; [assumption|]. rewrite EW'. cbn. split; [reflexivity|]. right. eexists. exact CS2.
    + destruct (ball_cend_none c1 y v y2 v2 p (rk_t s + h)%Qc st CS POS (fun E => match S1 E with end)) as [c' [E2 CS2]]. rewrite E2 in FR. cbn [obind] in FR.
      destruct (FR _ _ eq_refl eq_refl) as [s' [E3 [RD' [ET [EX' EW']]]]]. eapply (OFull _ _ _ _ _ _ s' _ E3); [|assumption|exact ET|intros CM; specialize (CALM CM); right; rewrite EW'; cbn; rewrite <- CALM; split; apply CS2|intros NC; contradiction (NC (NCALM S1))].
      split; [assumption|]. split; [assumption|]. split; [assumption|]. rewrite EW'. cbn. split; [reflexivity|]. right. eexists. exact CS2.
Qed.
End Ball.
