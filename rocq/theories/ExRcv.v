(** ExRcv.v - concrete cases and refutations for C81. *)
From Coq Require Import List Arith Bool ZArith QArith Qcanon Lia Reals Lra Qreals.
From Verif Require Import Base BaseFacts VecModel VOps SMap LUSpec NewtModel RkModel RkSpec RkFacts3 StepModel RosModel RosSpec RosFacts6 RosFacts7 ConvSpec ConvFacts ConvFacts4 ConvFacts5 HighFacts5 ImcSpec ImcFacts3 GraFacts2 RcvSpec RcvFacts2 PropRcv ExConv ExXrk ExGra.
Import ListNotations.
Local Open Scope R_scope.
Definition plain (f : Qc -> list Qc -> Outcome (list Qc)) : rcfg unit := mkRcfg 0 1 1%Qc (fun _ => f) (fun _ _ _ w => Ret w) 0%Qc true (fun v => Ret (Qcabs (cmp_ v 0))) (fun h _ => (h, true, false)).
Lemma plain_safe f : good_rhs (N:=QcNum) 1 f -> r_safe (no_events (N:=QcNum)) (plain f) f.
Proof.
  intros G. split; [cbn; lia|]. split; [exact G|]. split; [reflexivity|]. split; [intros; eexists; reflexivity|]. split; [intros; eexists; reflexivity|]. split; [|intros; eexists; reflexivity].
  intros x1 x2 t2 w _ L2. eexists. eexists. split; [reflexivity|]. split; [exact L2|]. intros _. split; reflexivity.
Qed.
Lemma no_trunc : forall x1 x2 t2 (w w' : unit) e, ev_end (no_events (N:=QcNum)) x1 x2 t2 w = Ret (w', e) -> ev_trunc e = false.
Proof. intros x1 x2 t2 w w' e E. injection E as _ <-. reflexivity. Qed.
Lemma one_covers e : stencil_covers e 1. Proof. intros r c H. lia. Qed.
Lemma plain_stiff f L : stiffness (plain f) L = 1 + L.
Proof. unfold stiffness, rc_n, plain. cbn [rc_d rc_n2 rc_n1]. rewrite q2r_1, Rabs_R1. cbn. ring. Qed.
Lemma d_one f : rc_d (plain f) <> 0%Qc. Proof. discriminate. Qed.
Lemma small_steps f H l : H <= / 4 -> Forall (fun h => 0 < q2r h <= H) l -> Forall (fun h => 0 < q2r h /\ Rabs (q2r (h * rc_d (plain f))%Qc) <= 1 /\ q2r h * stiffness (plain f) 1 <= / 2) l.
Proof.
  intros HH FL. eapply Forall_impl; [|exact FL]. intros h (A & B). split; [exact A|]. rewrite plain_stiff. cbn [rc_d plain]. rewrite Qcmult_1_r. rewrite Rabs_right by lra. split; lra.
Qed.
Lemma one_pattern f always (s : rst unit) : r_safe (no_events (N:=QcNum)) (plain f) f -> q_inv (plain f) f (negb always) s -> ro_m (q_ros (fst (q_init (plain f) always s))) = 1%nat.
Proof.
  intros SA QI. destruct (q_init_ok no_events (plain f) f SA always s QI) as (si & f0 & EI & _ & _ & _ & _ & _ & _ & _ & _ & _ & A1 & B1 & _). rewrite EI. cbn [fst]. unfold ro_m. rewrite A1, B1. reflexivity.
Qed.

(** * x' = x, x(0) = 1: for any step sizes up to H <= 1/4 the solvers run, and the computed values tend to e^t *)
Notation ec := (plain (same tt)).
Lemma same_good : good_rhs (N:=QcNum) 1 (same tt). Proof. intros t x L. exists x. split; [reflexivity|exact L]. Qed.
Definition w0 (h : Qc) : rst unit := w1_set 0%Qc [1%Qc] false (q_setStep h (q_new tt)).
Definition z0 (h : Qc) : rst unit := fst (sw_set ec 0%Qc [1%Qc] false (q_setStep h (q_new tt))).
Lemma start_near : near 1 (toR [1%Qc]) (expX 0) 0.
Proof. intros [|j] Hj; [|lia]. unfold cmpR, expX. cbn. rewrite exp_0, q2r_1, Rminus_eq_0, Rabs_R0. lra. Qed.
Lemma exp_bounded t j : 0 <= t <= 0 + 1 -> (j < 1)%nat -> Rabs (cmpR (idf t (expX t)) j) <= exp 1.
Proof. intros Ht Hj. destruct j; [|lia]. unfold cmpR, idf, expX. cbn [nth]. rewrite Rabs_right by (pose proof (exp_pos t); lra). apply exp_le1. exact Ht. Qed.
Example C81_w1_exponential : forall h l H, Forall (fun h => 0 < q2r h <= H) l -> 0 <= H <= / 4 -> total (map q2r l) <= 1 ->
  exists s', w1_path no_events ec (w0 h) l s' /\ Rabs (cmpR (toR (q_x s')) 0 - exp (total (map q2r l))) <= exp 2 * (5 * exp 1 * H).
Proof.
  intros h l H FL HH TT. pose proof (plain_safe _ same_good) as SA. assert (RE : w1_reach no_events ec (w0 h)) by (apply w1_start; reflexivity).
  destruct (C81_w1_runs unit no_events ec (same tt) SA no_trunc idf 1 same_computes ltac:(lra) (lip_x 1 1 idf (id_lip 1)) (d_one _) (w0 h) l RE eq_refl) as (s' & P).
  { rewrite (one_pattern (same tt) true (w0 h) SA) by (exact (w1_reach_inv no_events ec _ SA _ RE)). apply one_covers. }
  { apply (small_steps _ H); [lra|exact FL]. }
  exists s'. split; [exact P|]. pose proof (exp_pos 1) as E1.
  destruct (C81_w1 unit no_events ec (same tt) SA idf expX 1 (exp 1) (exp 1) 0 1 H same_computes ltac:(lra) (lip_x 1 1 idf (id_lip 1)) ltac:(lra) ltac:(lra) (exp_solves 0 (0 + 1)) exp_slopes exp_bounded (d_one _) ltac:(rewrite plain_stiff; lra)
    (w0 h) l s' 0 RE eq_refl P FL TT ltac:(lra) q2r_0 ltac:(lra) start_near) as (ET & N).
  specialize (N 0%nat ltac:(cbn; lia)). rewrite ET, Rplus_0_l in N. unfold expX in N at 1. change (cmpR [exp (total (map q2r l))] 0) with (exp (total (map q2r l))) in N. eapply Rle_trans; [exact N|]. rewrite plain_stiff. replace (2 * 1 * 1) with 2 by ring. right. ring.
Qed.
Example C81_sw_exponential : forall h l H, Forall (fun h => 0 < q2r h <= H) l -> 0 <= H <= / 4 -> total (map q2r l) <= 1 ->
  exists s', sw_path no_events ec (z0 h) (map (fun h => (h, h)) l) s' /\ Rabs (cmpR (toR (q_x s')) 0 - exp (total (map q2r l))) <= exp (13 / 2) * (167 / 6 * exp 1 * (H * H)).
Proof.
  intros h l H FL HH TT. pose proof (plain_safe _ same_good) as SA. assert (RE : sw_reach no_events ec (z0 h)) by (apply sw_start; reflexivity).
  destruct (C81_sw_runs unit no_events ec (same tt) SA no_trunc idf 1 same_computes ltac:(lra) (lip_x 1 1 idf (id_lip 1)) (d_one _) eq_refl (z0 h) l RE eq_refl) as (s' & P).
  { rewrite (one_pattern (same tt) false (z0 h) SA) by (exact (sw_reach_inv no_events ec _ SA _ RE)). apply one_covers. }
  { apply (small_steps _ H); [lra|exact FL]. }
  exists s'. split; [exact P|]. pose proof (exp_pos 1) as E1. assert (MS : map snd (map (fun h : Qc => (h, h)) l) = l) by (rewrite map_map; cbn [snd]; apply map_id).
  destruct (C81_sw_second unit no_events ec (same tt) SA idf expX (fun t _ => exp t) 1 (exp 1) (exp 1) (exp 1) 0 1 H same_computes ltac:(lra) (lip_x 1 1 idf (id_lip 1)) ltac:(lra) ltac:(lra) (exp_solves 0 (0 + 1)) exp_slopes exp_bounded (d_one _) ltac:(rewrite plain_stiff; lra) ltac:(lra) exp_curves
    (z0 h) (map (fun h => (h, h)) l) s' 0 RE eq_refl P) as (ET & N); try lra.
  - apply Forall_map. eapply Forall_impl; [|exact FL]. intros y Y. split; exact Y.
  - apply Forall_map. apply Forall_forall. intros y _. reflexivity.
  - rewrite MS. exact TT.
  - apply q2r_0.
  - exact start_near.
  - specialize (N 0%nat ltac:(cbn; lia)). rewrite ET, Rplus_0_l, MS in N. unfold expX in N at 1. change (cmpR [exp (total (map q2r l))] 0) with (exp (total (map q2r l))) in N. eapply Rle_trans; [exact N|]. rewrite plain_stiff.
    replace ((2 * 1 + 3 / 2 * 1 * (1 + 2 * 1 * 1)) * 1) with (13 / 2) by field. right. field.
Qed.

(** * W1 has order one only: for x' = t, x(0) = 0 the error at time T with constant step size h is T h / 2 *)
Definition time_rhs (t : Qc) (x : list Qc) : Outcome (list Qc) := Ret [t].
Lemma time_good : good_rhs (N:=QcNum) 1 time_rhs. Proof. intros t x _. exists [t]. split; reflexivity. Qed.
Notation tc := (plain time_rhs).
Definition v0 : rst unit := w1_set 0%Qc [0%Qc] false (q_setStep 0%Qc (q_new tt)).
Lemma time_path h : h <> 0%Qc -> forall s l s', w1_path no_events tc s l s' -> w1_reach no_events tc s -> Forall (fun k => k = h) l -> (q_k s <> 0%nat -> jac (q_ros s) 0 0 = 0%Qc) ->
  q_t s' = (q_t s + qn (length l) * h)%Qc /\ (cmp_ (q_x s') 0 * qn 2 = cmp_ (q_x s) 0 * qn 2 + q_t s' * q_t s' - q_t s * q_t s - (q_t s' - q_t s) * h)%Qc.
Proof.
  intros HN s l s' P. induction P as [s|s h' l s' P IH|s s1 a l s' E TR SO P IH]; intros RE FL JI.
  - cbn [length]. change (qn 0) with 0%Qc. split; ring.
  - apply (IH (w1_size _ _ _ _ RE) FL JI).
  - inversion FL as [|? ? HH FL']. rewrite HH in *. clear H H0 FL. pose proof (plain_safe _ time_good) as SA.
    destruct (w1_step_ok no_events tc time_rhs SA s s1 a RE E TR) as (f0 & k1 & EF & (J1 & J2) & ET & EH & (_ & _ & SV & NX)).
    { rewrite HH. cbn [rc_d plain]. rewrite Qcmult_1_r. exact HN. }
    { rewrite HH. exact SO. }
    injection EF as <-. assert (JZ : jac (q_ros s1) 0 0 = 0%Qc).
    { destruct (Nat.eq_dec (q_k s) 0) as [Z|Z]; [rewrite (J1 Z 0%nat 0%nat) by (cbn; lia); cbn; unfold difference, time_rhs, value, cmp_; cbn [nth]; unfold Qcdiv; ring|rewrite (J2 Z); exact (JI Z)]. }
    specialize (SV 0%nat ltac:(cbn; lia)). cbn [qsum rc_n rc_n1 rc_n2 plain Nat.mul Nat.add] in SV. unfold shifted in SV. rewrite JZ in SV. unfold vfun in SV. cbn [nth] in SV. change (delta 0 0) with 1%Qc in SV.
    assert (K1 : cmp_ k1 0 = q_t s) by (unfold cmp_; rewrite <- SV; ring). specialize (NX 0%nat ltac:(cbn; lia)). rewrite K1, HH in NX.
    destruct (IH (w1_did _ _ _ _ _ RE E) FL' (fun _ => JZ)) as (A & B). rewrite HH in ET. cbn [length]. rewrite (RkFacts3.qn_S (length l)). split; [rewrite A, ET; ring|]. rewrite B, NX, ET. change (qn 2) with (1 + 1)%Qc. ring.
Qed.
Theorem C81_w1_second_refuted : ~ exists C, forall h m s', 0 < q2r h <= / 2 -> INR m * q2r h <= 1 -> w1_path no_events tc v0 (repeat h m) s' -> Rabs (q2r (cmp_ (q_x s') 0) - (INR m * q2r h) * (INR m * q2r h) / 2) <= C * (q2r h * q2r h).
Proof.
  intros (C & HC). destruct (archimed (2 * Rabs C + 2)) as (AR & _). set (m := Z.to_nat (up (2 * Rabs C + 2))). pose proof (Rabs_pos C) as PC.
  assert (UP : (0 < up (2 * Rabs C + 2))%Z) by (apply lt_IZR; simpl; lra). assert (MI : INR m = IZR (up (2 * Rabs C + 2))) by (unfold m; rewrite INR_IZR_INZ, Z2Nat.id by lia; reflexivity). rewrite <- MI in AR.
  assert (QN : qn m <> 0%Qc). { intros Q. apply (f_equal q2r) in Q. rewrite q2r_qn, q2r_0 in Q. lra. }
  assert (QH : (qn m * (1 / qn m) = 1)%Qc) by (field; exact QN).
  assert (EH : q2r (1 / qn m)%Qc = / INR m). { assert (Q : INR m * q2r (1 / qn m)%Qc = 1) by (rewrite <- q2r_qn, <- q2r_mult; transitivity (q2r 1%Qc); [f_equal; exact QH|apply q2r_1]). apply (Rmult_eq_reg_l (INR m)); [|lra]. rewrite Q. field. lra. }
  set (h := (1 / qn m)%Qc) in *. assert (IP : 0 < / INR m) by (apply Rinv_0_lt_compat; lra). assert (I2 : / INR m <= / 2) by (apply Rinv_le_contravar; lra).
  pose proof (plain_safe _ time_good) as SA. assert (RE : w1_reach no_events tc v0) by (apply w1_start; reflexivity).
  assert (CR : computes_rhs 1 time_rhs (fun t _ => [t])) by (intros t x Lx; exists [t]; split; [reflexivity|split; reflexivity]).
  assert (LI : lipschitz_x 1 0 (fun t _ => [t])) by (intros t x y d _ _ D0 j Hj; rewrite Rminus_eq_0, Rabs_R0; lra).
  destruct (C81_w1_runs unit no_events tc time_rhs SA no_trunc (fun t _ => [t]) 0 CR ltac:(lra) LI (d_one _) v0 (repeat h m) RE eq_refl) as (s' & P).
  { rewrite (one_pattern time_rhs true v0 SA) by (exact (w1_reach_inv no_events tc _ SA _ RE)). apply one_covers. }
  { apply Forall_forall. intros y Y. apply repeat_spec in Y. subst y. rewrite plain_stiff. cbn [rc_d plain]. rewrite Qcmult_1_r, EH. rewrite Rabs_right by lra. repeat split; lra. }
  specialize (HC h m s' ltac:(rewrite EH; lra) ltac:(rewrite EH, Rinv_r by lra; lra) P).
  destruct (time_path h ltac:(intros Q; apply (f_equal q2r) in Q; rewrite EH, q2r_0 in Q; lra) v0 (repeat h m) s' P RE) as (A & B).
  { apply Forall_forall. intros y Y. apply repeat_spec in Y. exact Y. }
  { intros Q. contradiction Q. reflexivity. }
  rewrite repeat_length, QH in A. change (q_t v0) with 0%Qc in *. change (cmp_ (q_x v0) 0) with 0%Qc in B. rewrite Qcplus_0_l in A. rewrite A in B.
  assert (V : q2r (cmp_ (q_x s') 0) = / 2 - / INR m / 2). { apply (f_equal q2r) in B. rewrite q2r_mult, q2r_qn in B. replace (0 * qn 2 + 1 * 1 - 0 * 0 - (1 - 0) * h)%Qc with (1 - h)%Qc in B by ring. rewrite q2r_minus, q2r_1, EH in B. cbn [INR] in B. lra. }
  rewrite V, EH, Rinv_r in HC by lra. set (i := / INR m) in *. replace (/ 2 - i / 2 - 1 * 1 / 2) with (- (i / 2)) in HC by field. rewrite Rabs_Ropp, Rabs_right in HC by lra.
  assert (Q : i / 2 <= Rabs C * (i * i)) by (eapply Rle_trans; [exact HC|]; apply Rmult_le_compat_r; [nra|apply Rle_abs]).
  assert (II : i * INR m = 1) by (unfold i; field; lra). apply (Rmult_le_compat_r (INR m)) in Q; [|lra]. replace (Rabs C * (i * i) * INR m) with (i * Rabs C * (i * INR m)) in Q by ring. rewrite II in Q. replace (i / 2 * INR m) with (i * INR m / 2) in Q by field. rewrite II in Q. nra.
Qed.
Print Assumptions C81_w1_second_refuted.
