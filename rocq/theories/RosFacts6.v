(** RosFacts6.v - runs of the Rosenbrock solvers. *)
From Coq Require Import List Arith Bool Lia ZArith QArith Qcanon.
From Verif Require Import RexFacts Base BaseFacts VecModel VOps SMap SpModel SpSpec SpFacts LUSpec LUModel RkModel RkSpec StepModel RosModel RosSpec RkFacts NewtFacts ImpFacts RosFacts RosFacts2 RosFacts3 RosFacts4 OrdSpec RosFacts5.
Import ListNotations.
Local Open Scope nat_scope.

Section Runs.
Context {W : Type} (ev : events QcNum W) (c : rcfg W) (f : Qc -> list Qc -> Outcome (list Qc)).
Hypothesis SAFE : r_safe ev c f.
Notation n := (rc_n c).
(** full: the saved right-hand side is that of the current state (SW2(4)) *)
Definition q_inv (full : bool) (s : rst W) : Prop :=
  length (q_x s) = n /\
  ((q_k s = 0 /\ store_ok (ro_mats (q_ros s))) \/
   (q_k s = n /\ ros_inv (q_ros s) /\ ro_n2 (q_ros s) = rc_n2 c /\ ro_n1 (q_ros s) = rc_n1 c /\ (full = true -> f (q_t s) (q_x s) = Ret (q_f0 s)))).
Lemma n_pos : 0 < n. Proof. destruct SAFE as (A & _). unfold rc_n. lia. Qed.
Lemma inv_store r : ros_inv r -> store_ok (ro_mats r).
Proof. intros ((S & _) & _). exact S. Qed.
Lemma q_inv_store full s : q_inv full s -> store_ok (ro_mats (q_ros s)).
Proof. intros (_ & [(_ & S)|(_ & I & _)]); [exact S|apply inv_store; exact I]. Qed.

(** initStep *)
Lemma q_init_ok always s : q_inv (negb always) s -> exists s1 f0, q_init c always s = (s1, Ret tt) /\ f (q_t s) (q_x s) = Ret f0 /\ length f0 = n /\
  q_t s1 = q_t s /\ q_x s1 = q_x s /\ q_h s1 = q_h s /\ q_f0 s1 = f0 /\ q_k s1 = n /\ q_w s1 = q_w s /\
  ros_inv (q_ros s1) /\ ro_n2 (q_ros s1) = rc_n2 c /\ ro_n1 (q_ros s1) = rc_n1 c /\ ((q_h s * rc_d c)%Qc <> 0%Qc -> ro_lu (q_ros s1) = Some (q_h s * rc_d c)%Qc) /\
  (q_k s = 0 -> is_jac (rc_n2 c) (rc_n1 c) f (q_t s) (q_x s) f0 (q_ros s1)) /\
  (q_k s <> 0 -> jac (q_ros s1) = jac (q_ros s)).
Proof.
  intros (LX & K). destruct SAFE as (P & G & FW & _). pose proof n_pos as NP. destruct (G (q_t s) (q_x s) LX) as (f0 & EF & LF).
  unfold q_init. rewrite FW. destruct K as [(K0 & S)|(K0 & I & A & B & FF)]; rewrite K0.
  - cbn [Nat.eqb orb]. change (nT QcNum) with Qc in *. rewrite EF. cbn [rfail q_k].
    destruct (init_hard (rc_n2 c) (rc_n1 c) f (q_t s) (q_x s) f0 (q_h s * rc_d c)%Qc (q_ros s) S) as (r' & E & I' & JJ & HD & LU).
    { split; [exact G|]. split; [exact LX|exact LF]. }
    rewrite E. eexists. exists f0. split; [reflexivity|]. cbn [q_t q_x q_h q_f0 q_k q_ros q_w]. destruct JJ as (J1 & J2 & J3).
    repeat (split; [first [reflexivity|assumption]|]). split; [|intros Q; contradiction]. intros _. split; [exact J1|]. split; assumption.
  - assert (K1 : (n =? 0) = false) by (apply Nat.eqb_neq; lia). rewrite K1. cbn [orb].
    assert (EO : (if always then f (q_t s) (q_x s) else Ret (q_f0 s)) = Ret f0).
    { destruct always; [exact EF|]. rewrite <- EF. symmetry. apply FF. reflexivity. }
    change (nT QcNum) with Qc in *. rewrite EO. cbn [rfail q_k].
    destruct (init_soft (rc_n2 c) (rc_n1 c) f (q_t s) (q_x s) f0 (q_h s * rc_d c)%Qc (q_ros s) I) as (r' & E & I' & A' & B' & SJ & HD & LU).
    rewrite E. eexists. exists f0. split; [reflexivity|]. cbn [q_t q_x q_h q_f0 q_k q_ros q_w].
    repeat (split; [first [reflexivity|assumption|congruence]|]). split; [intros Q; lia|]. intros _. destruct SJ as (O1 & O2 & _). unfold jac, J1_, J2_. rewrite A', O1, O2. reflexivity.
Qed.
Lemma rc_ro r : ro_n2 r = rc_n2 c -> ro_n1 r = rc_n1 c -> ro_n r = n. Proof. intros A B. unfold ro_n, rc_n. rewrite A, B. reflexivity. Qed.
Lemma is_jac_same r r' t x f0 : same r r' -> is_jac (rc_n2 c) (rc_n1 c) f t x f0 r -> is_jac (rc_n2 c) (rc_n1 c) f t x f0 r'.
Proof. intros (A & B & C & _) (A' & B' & C'). split; [congruence|]. split; [congruence|]. rewrite C. exact C'. Qed.

(** one pass after initStep *)
Definition est_ok (hw : Qc) (s : rst W) (J : nat -> nat -> Qc) k1 k2 next (a : postarg QcNum) : Prop :=
  rc_nocheck c = false -> exists f1 est, f (q_t s + q_h s)%Qc next = Ret f1 /\ sw_estimate n J hw (q_h s * rc_d c) f (q_t s) (q_h s) k1 k2 next f1 est /\ rc_norm c est = Ret (pa_err a).
Lemma attempt_ok hw s s' o : q_inv true s -> q_k s = n -> ready (q_ros s) hw -> (q_h s * rc_d c)%Qc = hw \/ rc_n2 c = 0 -> sw_attempt ev c false s = (s', o) ->
  exists k1 k2 next, sw_formula n (jac (q_ros s)) hw (q_h s * rc_d c) f (q_t s) (q_x s) (q_f0 s) (q_h s) k1 k2 next /\ same (q_ros s) (q_ros s') /\ ready (q_ros s') hw /\
  match o with
  | ARejected a => q_inv true s' /\ q_k s' = n /\ q_t s' = q_t s /\ q_x s' = q_x s /\ q_f0 s' = q_f0 s /\ pa_h a = q_h s /\ est_ok hw s (jac (q_ros s)) k1 k2 next a
  | AAccepted a => q_inv true s' /\ q_k s' = n /\ pa_h a = q_h s /\ (pa_trunc a = false -> q_t s' = (q_t s + q_h s)%Qc /\ q_x s' = next) /\ est_ok hw s (jac (q_ros s)) k1 k2 next a
  | ATooSmall => True
  | _ => False
  end.
Proof.
  intros QI KN RD HH E. pose proof n_pos as NP. pose proof SAFE as (P & G & FW & SB & SS & SE & SN). pose proof QI as (LX & [(K0 & _)|(_ & I & N2 & N1 & FF)]); [lia|].
  specialize (FF eq_refl). destruct (G (q_t s) (q_x s) LX) as (f0' & EF & LF). change (nT QcNum) with Qc in *. rewrite FF in EF. injection EF as <-.
  pose proof (rc_ro _ N2 N1) as RN.
  unfold sw_attempt in E. cbn [qfail] in E. destruct (SB (q_t s) (q_x s) (q_f0 s) (q_w s)) as (w1 & E1). rewrite E1 in E. cbn [qfail] in E.
  destruct (SS (q_x s) (q_t s) w1) as (w2 & E2). change (nT QcNum) with Qc in *. rewrite E2 in E. cbn [qfail] in E. rewrite KN in E.
  rewrite FW in E.
  assert (HH' : (q_h s * rc_d c)%Qc = hw \/ ro_n2 (q_ros s) = 0) by (destruct HH as [Q|Q]; [left; exact Q|right; congruence]).
  assert (G' : good_rhs (N:=QcNum) (ro_n (q_ros s)) f) by (rewrite RN; exact G).
  destruct (sw_stages_ok c f (q_ros s) hw (q_h s) (q_t s) RD HH' G' (q_x s) (q_f0 s)) as (r1 & k1 & k2 & next & E3 & R1 & S1 & FO); [rewrite RN; exact LX|rewrite RN; exact LF|].
  rewrite RN in E3, FO. rewrite E3 in E. cbn [qfail] in E. pose proof FO as (L1 & L2 & L3 & _).
  destruct (G (q_t s + q_h s)%Qc next L3) as (f1 & E4 & L4). change (nT QcNum) with Qc in *. rewrite E4 in E. cbn [qfail] in E.
  exists k1, k2, next. split; [exact FO|].
  assert (ER : exists r2 err, (if rc_nocheck c then Ret (r1, 0%Qc) else sw_error c f n (q_t s) (q_h s) k1 k2 next f1 r1) = Ret (r2, err) /\ ready r2 hw /\ same (q_ros s) r2 /\
    (rc_nocheck c = false -> exists f1 est, f (q_t s + q_h s)%Qc next = Ret f1 /\ sw_estimate n (jac (q_ros s)) hw (q_h s * rc_d c) f (q_t s) (q_h s) k1 k2 next f1 est /\ rc_norm c est = Ret err)).
  { destruct (rc_nocheck c) eqn:NC; [exists r1, 0%Qc; split; [reflexivity|]; split; [exact R1|]; split; [exact S1|discriminate]|].
    destruct (sw_error_ok c f (q_ros s) hw (q_h s) (q_t s) HH' G' r1 k1 k2 next f1 SN R1 S1) as (r2 & e & est & E5 & R2 & S2 & NE & SEst); [rewrite RN; assumption..|].
    rewrite RN in E5, SEst. exists r2, e. split; [exact E5|]. split; [exact R2|]. split; [exact S2|]. intros _. exists f1, est. auto. }
  destruct ER as (r2 & err & E5 & R2 & S2 & ES). rewrite E5 in E. cbn [qfail] in E. clear E5.
  destruct (if rc_nocheck c then (q_h s, true, false) else rc_sc c (q_h s) err) as [[h' acc] chg] eqn:EC.
  pose proof S2 as (A2 & B2 & _). pose proof R2 as (I2 & _).
  assert (QI' : forall tt xx hh gg ww, length xx = n -> f tt xx = Ret gg -> q_inv true (mkRst tt xx hh gg n r2 ww)).
  { intros tt0 xx hh gg ww Lx Ef. split; [exact Lx|]. right. cbn [q_k q_ros q_t q_x q_f0]. split; [reflexivity|]. split; [exact I2|]. split; [congruence|]. split; [congruence|]. intros _. exact Ef. }
  destruct acc.
  - destruct (SE (q_x s) next (q_t s + q_h s)%Qc w2 LX L3) as (w3 & er & E6 & LE & UT). change (nT QcNum) with Qc in *. rewrite E6 in E. cbn [qfail] in E.
    assert (EG : exists g, (if ev_trunc er then rc_rhs c w3 (ev_t er) (ev_x er) else Ret f1) = Ret g /\ f (ev_t er) (ev_x er) = Ret g).
    { rewrite FW. destruct (ev_trunc er) eqn:TR.
      - destruct (G (ev_t er) (ev_x er) LE) as (g & EGg & _). exists g. split; exact EGg.
      - destruct (UT eq_refl) as [U1 U2]. exists f1. split; [reflexivity|]. rewrite U1, U2. exact E4. }
    destruct EG as (gg & EG & FG). rewrite EG in E. cbn [qfail] in E.
    destruct (chg && _) eqn:HM in E; injection E as <- <-; cbn [q_ros q_k q_t q_x pa_h pa_trunc]; split; [exact S2|split; [exact R2|exact Logic.I]|exact S2|split; [exact R2|]].
    split; [apply QI'; assumption|]. split; [reflexivity|]. split; [reflexivity|]. split; [|exact ES]. intros TR. destruct (UT TR) as [U1 U2]. auto.
  - destruct (chg && _) eqn:HM in E; injection E as <- <-; cbn [q_ros q_k q_t q_x q_f0 pa_h]; split; [exact S2|split; [exact R2|exact Logic.I]|exact S2|split; [exact R2|]].
    split; [apply QI'; assumption|]. repeat (split; [reflexivity|]). exact ES.
Qed.

(** every pass keeps the invariant, whatever the decomposition in use *)
Lemma solve_keep h r (b : list Qc) r' x : ros_inv r -> q_solve c h b r = Ret (r', x) -> ros_inv r' /\ same r r'.
Proof. unfold q_solve. destruct ((ro_m r =? 0) && (0 <? length b)); [discriminate|]. intros I E. destruct (linSolve_ret r b _ r' x I E) as (I' & Q). split; assumption. Qed.
Lemma qadd_len (a b v : list Qc) : qadd a b = Ret v -> length v = length a.
Proof. intros E. exact (lzip_length (N:=QcNum) _ _ _ _ E). Qed.
Lemma stages_keep h t (x f0 : list Qc) r r' k1 k2 next : ros_inv r -> length x = n -> sw_stages c f n t x f0 h r = Ret (r', k1, k2, next) -> ros_inv r' /\ same r r' /\ length next = n.
Proof.
  intros I LX E. unfold sw_stages in E. binv E. destruct (q_solve c h _ r) as [[rr1 xx1]| |] eqn:EQ1; cbn [obind fst snd] in E; try discriminate.
  destruct (solve_keep _ _ _ _ _ I EQ1) as [I1 S1]. binv E. binv E. binv E. binv E. binv E.
  destruct (q_solve c h _ rr1) as [[rr2 xx2]| |] eqn:EQ2; cbn [obind fst snd] in E; try discriminate. destruct (solve_keep _ _ _ _ _ I1 EQ2) as [I2 S2].
  unfold qcpy in E. rewrite (vcpy_ok (N:=QcNum)) in E by (etransitivity; [apply repeat_length|symmetry; exact LX]). cbn [obind] in E.
  destruct (qadd x _) as [y1| |] eqn:EY1; cbn [obind] in E; try discriminate. destruct (qadd y1 _) as [y2| |] eqn:EY2; cbn [obind] in E; try discriminate. injection E as <- <- <- <-.
  split; [exact I2|]. split; [exact (same_trans _ _ _ S1 S2)|]. rewrite (qadd_len _ _ _ EY2), (qadd_len _ _ _ EY1). exact LX.
Qed.
Lemma error_keep h t (k1 k2 next f1 : list Qc) r r' e : ros_inv r -> sw_error c f n t h k1 k2 next f1 r = Ret (r', e) -> ros_inv r' /\ same r r'.
Proof.
  intros I E. unfold sw_error in E. binv E. destruct (q_solve c h _ r) as [[rr1 xx1]| |] eqn:EQ1; cbn [obind fst snd] in E; try discriminate.
  destruct (solve_keep _ _ _ _ _ I EQ1) as [I1 S1]. do 7 (binv E).
  destruct (q_solve c h _ rr1) as [[rr2 xx2]| |] eqn:EQ2; cbn [obind fst snd] in E; try discriminate. destruct (solve_keep _ _ _ _ _ I1 EQ2) as [I2 S2].
  repeat (binv E). injection E as <- <-. split; [exact I2|exact (same_trans _ _ _ S1 S2)].
Qed.
Lemma attempt_keep s s' o : q_inv true s -> q_k s = n -> sw_attempt ev c false s = (s', o) ->
  match o with
  | ARejected a => q_inv true s' /\ q_k s' = n /\ q_t s' = q_t s /\ q_x s' = q_x s /\ q_f0 s' = q_f0 s /\ same (q_ros s) (q_ros s')
  | AAccepted a => q_inv true s' /\ q_k s' = n /\ same (q_ros s) (q_ros s')
  | _ => True
  end.
Proof.
  intros QI KN E. pose proof n_pos as NP. pose proof SAFE as (P & G & FW & SB & SS & SE & SN). pose proof QI as (LX & [(K0 & _)|(_ & I & N2 & N1 & FF)]); [lia|].
  specialize (FF eq_refl). unfold sw_attempt in E. cbn [qfail] in E. destruct (SB (q_t s) (q_x s) (q_f0 s) (q_w s)) as (w1 & E1). rewrite E1 in E. cbn [qfail] in E.
  destruct (SS (q_x s) (q_t s) w1) as (w2 & E2). change (nT QcNum) with Qc in *. rewrite E2 in E. cbn [qfail] in E. rewrite KN in E. rewrite FW in E.
  destruct (sw_stages c f n (q_t s) (q_x s) (q_f0 s) (q_h s) (q_ros s)) as [[[[r1 k1] k2] next]| |] eqn:E3; cbn [qfail] in E; try (injection E as <- <-; exact Logic.I).
  destruct (stages_keep _ _ _ _ _ _ _ _ _ I LX E3) as (I1 & S1 & L3).
  destruct (G (q_t s + q_h s)%Qc next L3) as (f1 & E4 & L4). change (nT QcNum) with Qc in *. rewrite E4 in E. cbn [qfail] in E.
  destruct (if rc_nocheck c then Ret (r1, 0%Qc) else sw_error c f n (q_t s) (q_h s) k1 k2 next f1 r1) as [[r2 err]| |] eqn:E5; cbn [qfail] in E; try (injection E as <- <-; exact Logic.I).
  assert (RK : ros_inv r2 /\ same (q_ros s) r2).
  { destruct (rc_nocheck c); [injection E5 as <- _; auto|]. destruct (error_keep _ _ _ _ _ _ _ _ _ I1 E5) as [A B]. split; [exact A|exact (same_trans _ _ _ S1 B)]. }
  destruct RK as [I2 S2]. clear E5. destruct (if rc_nocheck c then (q_h s, true, false) else rc_sc c (q_h s) err) as [[h' acc] chg] eqn:EC.
  pose proof S2 as (A2 & B2 & _).
  assert (QI' : forall tt xx hh gg ww, length xx = n -> f tt xx = Ret gg -> q_inv true (mkRst tt xx hh gg n r2 ww)).
  { intros tt0 xx hh gg ww Lx Ef. split; [exact Lx|]. right. cbn [q_k q_ros q_t q_x q_f0]. split; [reflexivity|]. split; [exact I2|]. split; [congruence|]. split; [congruence|]. intros _. exact Ef. }
  destruct acc.
  - destruct (SE (q_x s) next (q_t s + q_h s)%Qc w2 LX L3) as (w3 & er & E6 & LE & UT). change (nT QcNum) with Qc in *. rewrite E6 in E. cbn [qfail] in E.
    assert (EG : exists g, (if ev_trunc er then rc_rhs c w3 (ev_t er) (ev_x er) else Ret f1) = Ret g /\ f (ev_t er) (ev_x er) = Ret g).
    { rewrite FW. destruct (ev_trunc er) eqn:TR.
      - destruct (G (ev_t er) (ev_x er) LE) as (g & EGg & _). exists g. split; exact EGg.
      - destruct (UT eq_refl) as [U1 U2]. exists f1. split; [reflexivity|]. rewrite U1, U2. exact E4. }
    destruct EG as (gg & EG & FG). rewrite EG in E. cbn [qfail] in E.
    destruct (chg && _) eqn:HM in E; injection E as <- <-; [exact Logic.I|]. cbn [q_ros q_k]. split; [apply QI'; assumption|]. split; [reflexivity|exact S2].
  - destruct (chg && _) eqn:HM in E; injection E as <- <-; [exact Logic.I|]. cbn [q_ros q_k q_t q_x q_f0]. split; [apply QI'; assumption|]. repeat (split; [reflexivity|]). exact S2.
Qed.
Lemma loop_last ni fuel s s' l a : sw_loop ev c fuel ni s = (s', l, Some (AAccepted a)) -> exists l', l = l' ++ [a].
Proof.
  revert ni s s' l. induction fuel as [|k IH]; intros ni s s' l E; cbn [sw_loop] in E; [discriminate|].
  destruct (sw_attempt ev c ni s) as [s1 o1]. destruct o1 as [| | |b|b]; try discriminate.
  - destruct (sw_loop ev c k false s1) as [[s2 l2] r2] eqn:EL. injection E as <- <- ->. destruct (IH _ _ _ _ EL) as [l' ->]. exists (b :: l'). reflexivity.
  - injection E as <- <- <-. exists []. reflexivity.
Qed.
Lemma loop_keep fuel s s' l o : q_inv true s -> q_k s = n -> sw_loop ev c fuel false s = (s', l, o) ->
  match o with Some (AAccepted _) => q_inv true s' /\ q_k s' = n /\ same (q_ros s) (q_ros s') | None => q_t s' = q_t s /\ q_x s' = q_x s | _ => True end.
Proof.
  revert s s' l o. induction fuel as [|k IH]; intros s s' l o QI KN E; cbn [sw_loop] in E.
  - injection E as <- <- <-. auto.
  - destruct (sw_attempt ev c false s) as [s1 o1] eqn:EA. pose proof (attempt_keep s s1 o1 QI KN EA) as M. destruct o1 as [| | |a|a]; try (injection E as <- <- <-; exact Logic.I).
    + destruct M as (Q1 & K1 & T1 & X1 & _ & S1). destruct (sw_loop ev c k false s1) as [[s2 l2] r2] eqn:EL. injection E as <- <- <-.
      specialize (IH s1 s2 l2 r2 Q1 K1 EL). destruct r2 as [[| | |b|b]|]; try exact Logic.I.
      * destruct IH as (A & B & C). split; [exact A|]. split; [exact B|exact (same_trans _ _ _ S1 C)].
      * destruct IH as [A B]. split; congruence.
    + injection E as <- <- <-. exact M.
Qed.

(** doStep after initStep *)
Definition step_claim (hw : Qc) (s s' : rst W) (a : postarg QcNum) : Prop :=
  exists k1 k2 next, sw_formula n (jac (q_ros s)) hw (pa_h a * rc_d c) f (q_t s) (q_x s) (q_f0 s) (pa_h a) k1 k2 next /\
    (pa_trunc a = false -> q_t s' = (q_t s + pa_h a)%Qc /\ q_x s' = next) /\
    (rc_nocheck c = false -> exists f1 est, f (q_t s + pa_h a)%Qc next = Ret f1 /\ sw_estimate n (jac (q_ros s)) hw (pa_h a * rc_d c) f (q_t s) (pa_h a) k1 k2 next f1 est /\ rc_norm c est = Ret (pa_err a)).
Lemma loop_ok hw fuel s s' l a : q_inv true s -> q_k s = n -> ready (q_ros s) hw -> (q_h s * rc_d c)%Qc = hw \/ rc_n2 c = 0 ->
  sw_loop ev c fuel false s = (s', l, Some (AAccepted a)) -> rc_n2 c = 0 \/ length l = 1 -> step_claim hw s s' a /\ (length l = 1 -> pa_h a = q_h s).
Proof.
  revert s s' l. induction fuel as [|k IH]; intros s s' l QI KN RD HH E HL; cbn [sw_loop] in E; [discriminate|].
  destruct (sw_attempt ev c false s) as [s1 o1] eqn:EA. destruct (attempt_ok hw s s1 o1 QI KN RD HH EA) as (k1 & k2 & next & FO & SM & RD1 & M).
  destruct o1 as [| | |b|b]; try discriminate.
  - destruct M as (Q1 & K1 & T1 & X1 & F1 & HA & ES). destruct (sw_loop ev c k false s1) as [[s2 l2] r2] eqn:EL. injection E as <- <- ->.
    destruct (loop_last _ _ _ _ _ _ EL) as [l' EL2]. assert (L2 : length (b :: l2) <> 1) by (rewrite EL2; cbn; rewrite app_length; cbn; lia).
    destruct HL as [HL|HL]; [|contradiction]. destruct (IH s1 s2 l2 Q1 K1 RD1 (or_intror HL) EL (or_introl HL)) as [(k1' & k2' & next' & FO' & TR' & ES') _].
    split; [|intros; contradiction]. exists k1', k2', next'. rewrite (same_jac _ _ SM), T1, X1, F1 in FO'. rewrite (same_jac _ _ SM), T1 in ES'. rewrite T1 in TR'. auto.
  - injection E as <- <- <-. destruct M as (Q1 & K1 & HA & TR & ES). split; [|auto]. exists k1, k2, next. rewrite HA. split; [exact FO|]. split; [exact TR|exact ES].
Qed.
Lemma attempt_init s s1 : q_init c false s = (s1, Ret tt) -> sw_attempt ev c true s = sw_attempt ev c false s1.
Proof. intros E. unfold sw_attempt. rewrite E. reflexivity. Qed.
Lemma step_init s s1 fuel : q_init c false s = (s1, Ret tt) -> 0 < fuel -> sw_step ev c fuel s = sw_loop ev c fuel false s1.
Proof. intros E H. destruct fuel; [lia|]. unfold sw_step. cbn [sw_loop]. rewrite (attempt_init s s1 E). reflexivity. Qed.
Lemma sw_reach_inv s : sw_reach ev c s -> q_inv true s.
Proof.
  induction 1 as [w h t x LX|s t x US LX|s s' t x soft H IH LX E|s h H IH|s fuel s' l a H IH E].
  - split; [exact LX|]. left. split; [reflexivity|apply store_ok_new].
  - split; [exact LX|]. left. split; [reflexivity|exact (used_store s US)].
  - unfold sw_set in E. destruct soft.
    + destruct SAFE as (_ & G & FW & _). destruct (G t x LX) as (f0 & EF & LF). rewrite FW in E. change (nT QcNum) with Qc in *. rewrite EF in E. cbn [rfail] in E.
      destruct (length (q_f0 s) <? length f0) eqn:EL; [discriminate|]. injection E as <-. apply Nat.ltb_ge in EL.
      split; [exact LX|]. cbn [q_k q_ros q_t q_x q_f0]. destruct IH as (LXs & [(K & S)|(K & I & A & B & FF)]); [left; auto|]. right. repeat (split; [assumption|]). intros _.
      destruct (G (q_t s) (q_x s) LXs) as (g & EGg & LG). change (nT QcNum) with Qc in *. rewrite (FF eq_refl) in EGg. injection EGg as ->. rewrite skipn_all2 by lia. rewrite app_nil_r. exact EF.
    + injection E as <-. split; [exact LX|]. left. cbn [q_k q_ros]. split; [reflexivity|apply (q_inv_store true); exact IH].
  - destruct IH as (LX & K). split; [exact LX|exact K].
  - destruct fuel as [|k]; [discriminate|]. destruct (q_init_ok false s IH) as (s1 & f0 & EI & EF & LF & T1 & X1 & H1 & F1 & K1 & W1 & I1 & A1 & B1 & _).
    rewrite (step_init s s1 (S k) EI) in E by lia. apply (loop_keep (S k) s1 s' l (Some (AAccepted a))); [|exact K1|exact E].
    split; [destruct IH as [LX _]; congruence|]. right. repeat (split; [assumption|]). intros _. congruence.
Qed.
End Runs.
