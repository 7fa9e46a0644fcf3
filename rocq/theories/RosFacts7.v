(** RosFacts7.v - steps of the Rosenbrock solvers from reachable states. *)
From Coq Require Import List Arith Bool Lia ZArith QArith Qcanon.
From Verif Require Import RexFacts Base BaseFacts VecModel VOps SMap SpModel SpSpec SpFacts LUSpec LUModel RkModel RkSpec StepModel RosModel RosSpec RkFacts NewtFacts ImpSpec ImpFacts ImpFacts2 RosFacts RosFacts2 RosFacts3 RosFacts4 OrdSpec OrdFacts OrdFacts2 RosFacts5 RosFacts6.
Import ListNotations.
Local Open Scope nat_scope.

Section Steps.
Context {W : Type} (ev : events QcNum W) (c : rcfg W) (f : Qc -> list Qc -> Outcome (list Qc)).
Hypothesis SAFE : r_safe ev c f.
Notation n := (rc_n c).
Lemma is_jac_step r t (x f0 : list Qc) : is_jac (rc_n2 c) (rc_n1 c) f t x f0 r -> forall i k, i < n -> k < n ->
  jac r i k = if i <? rc_n2 c then delta (rc_n2 c + i) k else if k <? rc_n2 c + rc_n1 c then difference f t x f0 i k else 0%Qc.
Proof.
  intros (A & B & C1 & C2) i k Hi Hk. unfold jac, companion. rewrite A. unfold rc_n in Hi, Hk. destruct (Nat.ltb_spec i (rc_n2 c)) as [Q|Q]; [reflexivity|].
  assert (IM : i - rc_n2 c < rc_n2 c + rc_n1 c) by lia. apply Nat.ltb_lt in IM.
  destruct (Nat.ltb_spec k (rc_n2 c)) as [Q2|Q2].
  - destruct (Nat.ltb_spec k (rc_n2 c + rc_n1 c)); [|lia]. unfold J2_, get. rewrite C2, IM. apply Nat.ltb_lt in Q2. rewrite Q2. cbn [andb].
    replace (rc_n2 c + (i - rc_n2 c)) with i by lia. unfold difference. apply cand_get.
  - unfold J1_, get. rewrite C1, IM. cbn [andb]. destruct (Nat.ltb_spec (k - rc_n2 c) (rc_n1 c)) as [Q3|Q3]; destruct (Nat.ltb_spec k (rc_n2 c + rc_n1 c)); try lia; [|reflexivity].
    replace (rc_n2 c + (i - rc_n2 c)) with i by lia. replace (rc_n2 c + (k - rc_n2 c)) with k by lia. unfold difference. apply cand_get.
Qed.
Lemma solvable_same r r' hd : same r r' -> solvable r' hd -> solvable r hd.
Proof. intros Q. destruct (same_n _ _ Q) as [_ QM]. destruct Q as (A & B & C & _). unfold solvable, J1_, J2_. rewrite QM, C. auto. Qed.
Lemma init_facts always s : q_inv c f (negb always) s -> exists s1 f0, q_init c always s = (s1, Ret tt) /\ f (q_t s) (q_x s) = Ret f0 /\ length f0 = n /\
  q_t s1 = q_t s /\ q_x s1 = q_x s /\ q_h s1 = q_h s /\ q_f0 s1 = f0 /\ q_k s1 = n /\ q_inv c f true s1 /\
  ((q_h s * rc_d c)%Qc <> 0%Qc -> solvable (q_ros s1) (q_h s * rc_d c)%Qc -> ready (q_ros s1) (q_h s * rc_d c)%Qc) /\ step_jac c f s f0 (jac (q_ros s1)).
Proof.
  intros QI. destruct (q_init_ok ev c f SAFE always s QI) as (s1 & f0 & EI & EF & LF & T1 & X1 & H1 & F1 & K1 & W1 & I1 & A1 & B1 & LU & JH & JS).
  exists s1, f0. repeat (split; [assumption|]). split; [|split].
  - split; [destruct QI as [LX _]; congruence|]. right. repeat (split; [assumption|]). intros _. congruence.
  - intros NZ SO. split; [exact I1|]. split; [apply LU; exact NZ|]. split; [exact SO|]. unfold ro_m. rewrite A1, B1. apply SAFE.
  - split; [intros K; apply is_jac_step; apply JH; exact K|]. intros K i k. rewrite JS by exact K. reflexivity.
Qed.

Lemma sw_step_ok s fuel s' l a : sw_reach ev c s -> sw_step ev c fuel s = (s', l, Some (AAccepted a)) -> pa_trunc a = false -> (q_h s * rc_d c)%Qc <> 0%Qc ->
  solvable (q_ros s') (q_h s * rc_d c)%Qc -> rc_n2 c = 0 \/ length l = 1 ->
  exists f0 k1 k2, f (q_t s) (q_x s) = Ret f0 /\ step_jac c f s f0 (jac (q_ros s')) /\ q_t s' = (q_t s + pa_h a)%Qc /\ (length l = 1 -> pa_h a = q_h s) /\
    sw_formula n (jac (q_ros s')) (q_h s * rc_d c) (pa_h a * rc_d c) f (q_t s) (q_x s) f0 (pa_h a) k1 k2 (q_x s') /\
    (rc_nocheck c = false -> exists f1 est, f (q_t s') (q_x s') = Ret f1 /\ rc_norm c est = Ret (pa_err a) /\
       sw_estimate n (jac (q_ros s')) (q_h s * rc_d c) (pa_h a * rc_d c) f (q_t s) (pa_h a) k1 k2 (q_x s') f1 est).
Proof.
  intros RE E TR NZ SO HL. pose proof (sw_reach_inv ev c f SAFE s RE) as QI. destruct (init_facts false s QI) as (s1 & f0 & EI & EF & LF & T1 & X1 & H1 & F1 & K1 & Q1 & RDY & SJ).
  assert (FU : 0 < fuel) by (destruct fuel; [discriminate|lia]). rewrite (step_init ev c s s1 fuel EI FU) in E.
  pose proof (loop_keep ev c f SAFE fuel s1 s' l _ Q1 K1 E) as (_ & _ & SM).
  assert (RD : ready (q_ros s1) (q_h s * rc_d c)%Qc) by (apply RDY; [exact NZ|apply (solvable_same _ _ _ SM SO)]).
  destruct (loop_ok ev c f SAFE (q_h s * rc_d c)%Qc fuel s1 s' l a Q1 K1 RD (or_introl (f_equal (fun z => z * rc_d c)%Qc H1)) E HL) as [(k1 & k2 & next & FO & TT & ES) PH].
  destruct (TT TR) as [T2 X2]. exists f0, k1, k2. rewrite (same_jac _ _ SM). rewrite T1 in *. rewrite X1, F1 in FO. rewrite X2, T2. split; [exact EF|]. split; [exact SJ|]. split; [reflexivity|].
  split; [intros Q; rewrite <- H1; apply PH; exact Q|]. split; [exact FO|].
  intros NC. destruct (ES NC) as (f1 & est & A & B & D). exists f1, est. auto.
Qed.
Lemma sw_first s s' o : sw_reach ev c s -> (q_h s * rc_d c)%Qc <> 0%Qc -> solvable (q_ros (fst (q_init c false s))) (q_h s * rc_d c)%Qc -> sw_attempt ev c true s = (s', o) ->
  o <> AThrow /\ o <> AUb /\ forall a, o = ARejected a -> q_t s' = q_t s /\ q_x s' = q_x s.
Proof.
  intros RE NZ SO E. pose proof (sw_reach_inv ev c f SAFE s RE) as QI. destruct (init_facts false s QI) as (s1 & f0 & EI & EF & LF & T1 & X1 & H1 & F1 & K1 & Q1 & RDY & SJ).
  rewrite EI in SO. cbn [fst] in SO. rewrite (attempt_init ev c s s1 EI) in E.
  destruct (attempt_ok ev c f SAFE _ s1 s' o Q1 K1 (RDY NZ SO) (or_introl (f_equal (fun z => z * rc_d c)%Qc H1)) E) as (k1 & k2 & next & _ & _ & _ & M).
  destruct o as [| | |a|a]; try contradiction; (split; [discriminate|]; split; [discriminate|]); intros b EB; try discriminate. destruct M as (_ & _ & A & B & _). split; congruence.
Qed.
(** with no second order variables no pass fails *)
Lemma loop_safe hw fuel s : rc_n2 c = 0 -> q_inv c f true s -> q_k s = n -> ready (q_ros s) hw ->
  match sw_loop ev c fuel false s with (_, _, Some AThrow) | (_, _, Some AUb) => False | _ => True end.
Proof.
  intros N2. revert s. induction fuel as [|k IH]; intros s QI KN RD; cbn [sw_loop]; [exact I|]. destruct (sw_attempt ev c false s) as [s1 o] eqn:EA.
  destruct (attempt_ok ev c f SAFE hw s s1 o QI KN RD (or_intror N2) EA) as (k1 & k2 & next & _ & _ & RD1 & M). destruct o as [| | |a|a]; try exact I; try contradiction.
  destruct M as (Q1 & K1 & _). specialize (IH s1 Q1 K1 RD1). destruct (sw_loop ev c k false s1) as [[s2 l2] r2]. exact IH.
Qed.
Lemma sw_safe s fuel : sw_reach ev c s -> rc_n2 c = 0 -> (q_h s * rc_d c)%Qc <> 0%Qc -> solvable (q_ros (fst (q_init c false s))) (q_h s * rc_d c)%Qc ->
  snd (sw_step ev c fuel s) <> Some AThrow /\ snd (sw_step ev c fuel s) <> Some AUb.
Proof.
  intros RE N2 NZ SO. destruct fuel as [|k]; [split; discriminate|]. pose proof (sw_reach_inv ev c f SAFE s RE) as QI.
  destruct (init_facts false s QI) as (s1 & f0 & EI & EF & LF & T1 & X1 & H1 & F1 & K1 & Q1 & RDY & SJ). rewrite EI in SO. cbn [fst] in SO.
  rewrite (step_init ev c s s1 (S k) EI) by lia. pose proof (loop_safe _ (S k) s1 N2 Q1 K1 (RDY NZ SO)) as M.
  destruct (sw_loop ev c (S k) false s1) as [[s2 l2] [[| | |a|a]|]]; cbn [snd]; try contradiction; split; discriminate.
Qed.
Lemma sw_rejections s fuel s' l : sw_reach ev c s -> sw_step ev c fuel s = (s', l, None) -> q_t s' = q_t s /\ q_x s' = q_x s.
Proof.
  intros RE E. destruct fuel as [|k]; [injection E as <- _; auto|]. pose proof (sw_reach_inv ev c f SAFE s RE) as QI.
  destruct (init_facts false s QI) as (s1 & f0 & EI & EF & LF & T1 & X1 & H1 & F1 & K1 & Q1 & RDY & SJ). rewrite (step_init ev c s s1 (S k) EI) in E by lia.
  destruct (loop_keep ev c f SAFE (S k) s1 s' l None Q1 K1 E) as [A B]. split; congruence.
Qed.

(** * W1 *)
Lemma q_inv_weak s : q_inv c f true s -> q_inv c f false s.
Proof. intros (LX & [K|(K & I & A & B & _)]); (split; [exact LX|]); [left; exact K|right]. repeat (split; [assumption|]). discriminate. Qed.
Lemma w1_pass s s' o : q_inv c f false s -> w1_step ev c s = (s', o) -> exists s1 f0, q_init c true s = (s1, Ret tt) /\ f (q_t s) (q_x s) = Ret f0 /\ step_jac c f s f0 (jac (q_ros s1)) /\
  (forall a, o = AAccepted a -> q_inv c f false s' /\ same (q_ros s1) (q_ros s')) /\
  ((q_h s * rc_d c)%Qc <> 0%Qc -> solvable (q_ros s1) (q_h s * rc_d c)%Qc -> exists k1 next a, o = AAccepted a /\ pa_h a = q_h s /\ q_h s' = q_h s /\
     w1_formula n (jac (q_ros s1)) (q_h s * rc_d c) (q_x s) f0 (q_h s) k1 next /\ (pa_trunc a = false -> q_t s' = (q_t s + q_h s)%Qc /\ q_x s' = next)).
Proof.
  intros QI E. pose proof SAFE as (P & G & FW & SB & SS & SE & SN).
  destruct (init_facts true s QI) as (s1 & f0 & EI & EF & LF & T1 & X1 & H1 & F1 & K1 & Q1 & RDY & SJ). exists s1, f0. split; [exact EI|]. split; [exact EF|]. split; [exact SJ|].
  unfold w1_step in E. rewrite EI in E. cbn [qfail] in E. destruct (SB (q_t s1) (q_x s1) (q_f0 s1) (q_w s1)) as (w1 & E1). rewrite E1 in E. cbn [qfail] in E.
  destruct (SS (q_x s1) (q_t s1) w1) as (w2 & E2). change (nT QcNum) with Qc in *. rewrite E2 in E. cbn [qfail] in E. rewrite K1 in E.
  pose proof Q1 as (LX & [(K0 & _)|(_ & I1 & N2 & N1 & _)]); [pose proof (n_pos ev c f SAFE); lia|]. pose proof (rc_ro c _ N2 N1) as RN.
  assert (KEEP : forall r next, w1_next c n (q_x s1) (q_f0 s1) (q_h s1) (q_ros s1) = Ret (r, next) -> ros_inv r /\ same (q_ros s1) r /\ length next = n).
  { intros r next EN. unfold w1_next in EN. binv EN. destruct (q_solve c _ _ _) as [[rr kk]| |] eqn:EQ; cbn [obind fst snd] in EN; try discriminate.
    destruct (solve_keep c _ _ _ _ _ I1 EQ) as [I2 S2]. unfold qcpy in EN. rewrite (vcpy_ok (N:=QcNum)) in EN by (etransitivity; [apply repeat_length|symmetry; exact LX]). cbn [obind] in EN.
    destruct (qadd _ _) as [v| |] eqn:EV; cbn [obind] in EN; try discriminate. injection EN as <- <-. split; [exact I2|]. split; [exact S2|]. rewrite (qadd_len _ _ _ EV). exact LX. }
  split.
  - intros a ->. destruct (w1_next c n (q_x s1) (q_f0 s1) (q_h s1) (q_ros s1)) as [[r next]| |] eqn:EN; cbn [qfail fst snd] in E; try discriminate.
    destruct (KEEP r next eq_refl) as (I2 & S2 & LN). destruct (SE (q_x s1) next (q_t s1 + q_h s1)%Qc w2 LX LN) as (w3 & er & E6 & LE & UT). change (nT QcNum) with Qc in *. rewrite E6 in E. cbn [qfail] in E.
    injection E as <- _. cbn [q_ros]. split; [|exact S2]. split; [exact LE|]. right. cbn [q_k q_ros]. destruct S2 as (A & B & _). split; [reflexivity|]. split; [exact I2|]. split; [congruence|]. split; [congruence|discriminate].
  - intros NZ SO. pose proof (RDY NZ SO) as RD.
    destruct (w1_next_ok c (q_ros s1) (q_h s * rc_d c)%Qc (q_h s1) RD (or_introl (f_equal (fun z => z * rc_d c)%Qc H1)) (q_x s1) (q_f0 s1)) as (r & k1 & next & EN & RD2 & S2 & FO).
    { rewrite RN. exact LX. } { rewrite RN, F1. exact LF. }
    rewrite RN in EN, FO. rewrite EN in E. cbn [qfail fst snd] in E. destruct (KEEP r next EN) as (I2 & _ & LN).
    destruct (SE (q_x s1) next (q_t s1 + q_h s1)%Qc w2 LX LN) as (w3 & er & E6 & LE & UT). change (nT QcNum) with Qc in *. rewrite E6 in E. cbn [qfail] in E. injection E as <- <-.
    exists k1, next. eexists. split; [reflexivity|]. cbn [pa_h pa_trunc q_h q_t q_x]. split; [exact H1|]. split; [exact H1|]. rewrite X1, F1, H1 in FO. split; [exact FO|]. intros TR. destruct (UT TR) as [A B]. rewrite B, T1, H1. auto.
Qed.
Lemma w1_reach_inv s : w1_reach ev c s -> q_inv c f false s.
Proof.
  induction 1 as [w h t x LX|s t x US LX|s t x soft H IH LX|s h H IH|s s' a H IH E].
  - split; [exact LX|]. left. split; [reflexivity|apply store_ok_new].
  - split; [exact LX|]. left. split; [reflexivity|exact (used_store s US)].
  - split; [exact LX|]. unfold w1_set. cbn [q_k q_ros]. destruct soft; [|left; split; [reflexivity|apply (q_inv_store c f false); exact IH]].
    destruct IH as (_ & [K|(K & I & A & B & _)]); [left; exact K|right]. repeat (split; [assumption|]). discriminate.
  - destruct IH as (LX & K). split; [exact LX|exact K].
  - destruct (w1_pass s s' _ IH E) as (s1 & f0 & _ & _ & _ & K & _). destruct (K a eq_refl) as [Q _]. exact Q.
Qed.
Lemma w1_step_ok s s' a : w1_reach ev c s -> w1_step ev c s = (s', AAccepted a) -> pa_trunc a = false -> (q_h s * rc_d c)%Qc <> 0%Qc -> solvable (q_ros s') (q_h s * rc_d c)%Qc ->
  exists f0 k1, f (q_t s) (q_x s) = Ret f0 /\ step_jac c f s f0 (jac (q_ros s')) /\ q_t s' = (q_t s + q_h s)%Qc /\ q_h s' = q_h s /\
    w1_formula n (jac (q_ros s')) (q_h s * rc_d c) (q_x s) f0 (q_h s) k1 (q_x s').
Proof.
  intros RE E TR NZ SO. destruct (w1_pass s s' _ (w1_reach_inv s RE) E) as (s1 & f0 & EI & EF & SJ & K & Q). destruct (K a eq_refl) as [_ SM].
  destruct (Q NZ (solvable_same _ _ _ SM SO)) as (k1 & next & a' & EA & HA & HS & FO & TT). injection EA as <-. destruct (TT TR) as [A B].
  exists f0, k1. rewrite (same_jac _ _ SM), B. repeat (split; [assumption|]). exact FO.
Qed.
Lemma w1_safe s : w1_reach ev c s -> (q_h s * rc_d c)%Qc <> 0%Qc -> solvable (q_ros (fst (q_init c true s))) (q_h s * rc_d c)%Qc -> exists a, snd (w1_step ev c s) = AAccepted a /\ pa_h a = q_h s.
Proof.
  intros RE NZ SO. destruct (w1_step ev c s) as [s' o] eqn:E. destruct (w1_pass s s' o (w1_reach_inv s RE) E) as (s1 & f0 & EI & EF & SJ & K & Q).
  rewrite EI in SO. cbn [fst] in SO. destruct (Q NZ SO) as (k1 & next & a & EA & HA & _). exists a. auto.
Qed.
End Steps.

(** linear systems with the exact Jacobian and d = 1: implicit Euler *)
Lemma w1_linear n A (b : nat -> Qc) J (h : Qc) (x f0 k1 next : list Qc) : (forall i k, i < n -> k < n -> J i k = A i k) -> (forall j, j < n -> cmp_ f0 j = (qsum n (fun k => A j k * cmp_ x k) + b j)%Qc) ->
  w1_formula n J (h * 1) x f0 h k1 next -> forall j, j < n -> cmp_ next j = (cmp_ x j + h * (qsum n (fun k => A j k * cmp_ next k) + b j))%Qc.
Proof.
  intros HJ HF (L1 & L2 & S & N) j Hj. rewrite N by exact Hj. f_equal. f_equal.
  pose proof (shifted_iff n _ J _ _ S j Hj) as K. unfold vfun in K. fold (cmp_ k1 j) in K. fold (cmp_ f0 j) in K. rewrite K, HF by exact Hj.
  rewrite (qsum_ext n (fun k => (A j k * cmp_ next k)%Qc) (fun k => (A j k * cmp_ x k + h * (J j k * cmp_ k1 k))%Qc)) by (intros k Hk; rewrite N, HJ by assumption; ring).
  rewrite qsum_add, qsum_scale. unfold cmp_. ring.
Qed.
Lemma euler_energy n A (h : Qc) (x next : list Qc) : (forall j, j < n -> cmp_ next j = (cmp_ x j + h * qsum n (fun k => A j k * cmp_ next k))%Qc) -> dissipative n A -> (0 <= h)%Qc ->
  (energy n next <= energy n x)%Qc.
Proof.
  intros E D H. set (y := fun j => qsum n (fun k => A j k * cmp_ next k)%Qc).
  assert (Q : energy n x = (energy n next - (h + h) * qsum n (fun j => cmp_ next j * y j) + h * h * qsum n (fun j => y j * y j))%Qc).
  { unfold energy. rewrite <- !qsum_scale, <- qsum_sub, <- qsum_add. apply qsum_ext. intros j Hj. specialize (E j Hj). fold (y j) in E.
    assert (X : cmp_ x j = (cmp_ next j - h * y j)%Qc) by (rewrite E; ring). rewrite X. ring. }
  rewrite Q. specialize (D (cmp_ next)). fold y in D. change (qsum n (fun j => cmp_ next j * y j)%Qc <= 0)%Qc in D.
  pose proof (qsum_sq_nonneg n y) as P. clear Q E.
  assert (MN : forall a b : Qc, (0 <= a)%Qc -> (0 <= b)%Qc -> (0 <= a * b)%Qc) by (clear; intros; qcnra).
  assert (A1 : (0 <= h * h * qsum n (fun j => y j * y j))%Qc) by (apply MN; [apply MN; exact H|exact P]).
  assert (A2 : (0 <= - ((h + h) * qsum n (fun j => cmp_ next j * y j)))%Qc).
  { clear - H D. generalize dependent (qsum n (fun j => cmp_ next j * y j)%Qc). intros; qcnra. }
  clear - A1 A2. generalize dependent (h * h * qsum n (fun j => y j * y j))%Qc. generalize dependent ((h + h) * qsum n (fun j => cmp_ next j * y j))%Qc. generalize (energy n next). intros. qclra.
Qed.
