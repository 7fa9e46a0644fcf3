(** GrfFacts3.v - the Gragg solver in rounded arithmetic: the run as a perturbed two-step recursion. *)
From Coq Require Import List Arith Bool ZArith Lia Reals Lra.
From Verif Require Import Base BaseFacts VecModel VOps NewtModel NewtFacts ImpFacts RkModel RkSpec StepSpec ExtModel ConvSpec ConvFacts FpSpec IfpSpec IfpFacts3 IfpFacts5 GrfSpec GrfFacts2.
Import ListNotations.
Local Open Scope R_scope.

Section Run.
Context (rnd : R -> R) (u eta : R) {W : Type} (f : W -> R -> list R -> Outcome (list R)) (wd : W) (n : nat) (g : R -> list R -> list R) (Tm B G Lt phi : R).
Hypothesis RD : rounds rnd u eta.
Hypothesis U0 : 0 <= u.
Hypothesis E0 : 0 <= eta.
Notation w := (u + eta).
Hypothesis W1 : w <= 1.
Hypothesis CR : computes_near n Tm B phi (f wd) g.
Hypothesis SW : slopes_within n Tm B G Lt g.
Hypothesis B0 : 0 <= B.
Hypothesis G0 : 0 <= G.
Hypothesis Lt0 : 0 <= Lt.
Hypothesis phi0 : 0 <= phi.
Notation st := (gst (FNum rnd) W).
Notation Gp := (G + phi).
Context (h t0 T : R) (count : nat).
Notation A := (1 + Rabs t0 + T).
Notation Q := ((1 + B + Gp) * (1 + h)).
Notation h2 := (rnd (h / 2)).
Notation e := (gragg_noise B G Lt A T h w phi).
Hypothesis H0 : 0 < h.
Hypothesis HTm : 2 * A <= Tm.
Hypothesis HC : INR count * h <= T.
Hypothesis HW : 3 * INR count * w <= 1.

Lemma step_eq (s : st) : length (g_u s) = n -> g_h s = h -> g_w s = wd ->
  (g_run s = true -> length (g_v s) = n /\ length (g_f s : list R) = n /\ f wd (g_t s) (g_u s) = Ret (g_f s)) ->
  let v0 := (if g_run s then g_v s else g_u s) : list R in
  exists (f0 v1 f1 u2 f2 v2 : list R) a,
    f wd (g_t s) (g_u s) = Ret f0 /\ length f0 = n /\ length v1 = n /\ (forall j, (j < n)%nat -> cmpR v1 j = rnd (cmpR v0 j + rnd (cmpR f0 j * h2))) /\
    f wd (rnd (g_t s + h2)) v1 = Ret f1 /\ length f1 = n /\ length u2 = n /\ (forall j, (j < n)%nat -> cmpR u2 j = rnd (cmpR (g_u s) j + rnd (cmpR f1 j * h))) /\
    f wd (rnd (g_t s + h)) u2 = Ret f2 /\ length f2 = n /\ length v2 = n /\ (forall j, (j < n)%nat -> cmpR v2 j = rnd (cmpR v1 j + rnd (cmpR f2 j * h2))) /\
    g_step (N:=FNum rnd) no_events f 2 s = (mkG (N:=FNum rnd) (rnd (g_t s + h)) u2 v2 f2 true h wd, GRet a).
Proof.
  intros LU EH EW RUN v0. destruct s as [ts us vs fs run hs ws]. cbn [g_t g_u g_v g_f g_run g_h g_w] in *. subst hs ws.
  assert (LV : length v0 = n) by (unfold v0; destruct run; [apply RUN; reflexivity|exact LU]).
  assert (F0 : exists f0, f wd ts us = Ret f0 /\ length f0 = n /\ (if run then Ret fs else f wd ts us) = Ret f0).
  { destruct run; [destruct (RUN eq_refl) as (R1 & R2 & R3); exists fs; repeat split; assumption|]. destruct (CR ts us LU) as (f0 & Q1 & Q2 & _). exists f0. repeat split; assumption. }
  destruct F0 as (f0 & EF0 & LF0 & EF0').
  destruct (axpy rnd n v0 f0 h2 LV LF0) as (v1 & EV1 & LV1 & CV1).
  destruct (CR (rnd (ts + h2)) v1 LV1) as (f1 & EF1 & LF1 & _).
  destruct (axpy rnd n us f1 h LU LF1) as (u2 & EU2 & LU2 & CU2).
  destruct (CR (rnd (ts + h)) u2 LU2) as (f2 & EF2 & LF2 & _).
  destruct (axpy rnd n v1 f2 h2 LV1 LF2) as (v2 & EV2 & LV2 & CV2).
  exists f0, v1, f1, u2, f2, v2. eexists. repeat (split; [assumption|]).
  unfold g_step. cbn [g_t g_u g_v g_f g_run g_h g_w no_events ev_start gcall].
  change (ndiv (FNum rnd) h 2) with h2. change (nadd (FNum rnd) ts h2) with (rnd (ts + h2)). change (nadd (FNum rnd) ts h) with (rnd (ts + h)).
  assert (EV : forall (q : st) k, gcall q (if run then Ret fs else f wd ts us) k = k f0) by (intros q k; rewrite EF0'; reflexivity).
  rewrite EV. assert (EVV : g_v (if run then mkG (N:=FNum rnd) ts us vs fs run h wd else mkG (N:=FNum rnd) ts us us fs run h wd) = v0) by (unfold v0; destruct run; reflexivity).
  rewrite EVV. rewrite EV1. cbn [gcall]. rewrite EF1. cbn [gcall]. rewrite EU2. cbn [gcall]. rewrite EF2. cbn [gcall]. rewrite EV2. cbn [gcall no_events ev_end ev_t ev_x ev_trunc negb]. reflexivity.
Qed.

Lemma slope_nearG t te x y tau j : length x = n -> bnd n x B -> f wd t x = Ret y -> Rabs t <= Tm -> Rabs te <= Tm -> Rabs (t - te) <= tau -> (j < n)%nat ->
  Rabs (cmpR y j) <= Gp /\ Rabs (cmpR y j - cmpR (g te x) j) <= phi + Lt * tau.
Proof.
  intros L BX E M1 M2 TT J. destruct (CR t x L) as (y' & E' & Ly & N). rewrite E in E'. injection E' as <-. specialize (N M1 BX j J).
  destruct (SW t te x M1 M2 L BX) as [S1 S2]. specialize (S1 j J). specialize (S2 j J). split.
  - pose proof (abs_shift _ _ _ _ N S1). lra.
  - pose proof (abs_trans _ _ _ _ _ N S2). assert (Lt * Rabs (t - te) <= Lt * tau) by (apply Rmult_le_compat_l; assumption). lra.
Qed.

Definition inv (k : nat) (s : st) (y : nat -> list R) : Prop :=
  g_h s = h /\ g_w s = wd /\ y (2 * k)%nat = g_u s /\ Rabs (g_t s - (t0 + INR k * h)) <= 2 * INR k * w * A /\ (forall i, (i <= 2 * k)%nat -> length (y i) = n) /\
  g_run s = (0 <? k)%nat /\
  ((0 < k)%nat -> length (g_v s) = n /\ length (g_f s : list R) = n /\ f wd (g_t s) (g_u s) = Ret (g_f s) /\
     forall j, (j < n)%nat -> cmpR (g_v s) j = rnd (cmpR (y (2 * k - 1)%nat) j + rnd (cmpR (g_f s) j * h2))) /\
  ((1 <= 2 * k)%nat -> bnd n (y 0%nat) B -> forall j, (j < n)%nat -> Rabs (cmpR (y 1%nat) j - (cmpR (y 0%nat) j + h / 2 * cmpR (g t0 (y 0%nat)) j)) <= e) /\
  (forall i, (i + 2 <= 2 * k)%nat -> bnd n (y i) B -> bnd n (y (i + 1)%nat) B -> forall j, (j < n)%nat ->
     Rabs (cmpR (y (i + 2)%nat) j - (cmpR (y i) j + 2 * (h / 2) * cmpR (g (t0 + INR (i + 1) * (h / 2)) (y (i + 1)%nat)) j)) <= e).

Notation tau := (3 * INR count * w * A).
Lemma basics : 0 <= T /\ 1 <= A /\ 0 <= tau /\ tau <= A /\ 0 <= Q * w /\ 40 * (Q * w) + h * (phi + Lt * tau) <= e /\ 0 <= phi + Lt * tau.
Proof.
  pose proof (pos_INR count) as PC. assert (W0 : 0 <= w) by lra. assert (T0 : 0 <= T) by (eapply Rle_trans; [|exact HC]; apply Rmult_le_pos; lra). pose proof (Rabs_pos t0) as PT.
  assert (CW : 0 <= 3 * INR count * w) by (apply Rmult_le_pos; lra).
  assert (TP : 0 <= tau) by (apply Rmult_le_pos; lra). repeat split; try lra.
  - rewrite <- (Rmult_1_l A) at 2. apply Rmult_le_compat_r; lra.
  - apply Rmult_le_pos; [|lra]. apply Rmult_le_pos; lra.
  - unfold gragg_noise. assert (X1 : h * (Lt * tau) <= 3 * T * Lt * A * w).
    { replace (h * (Lt * tau)) with (INR count * h * (3 * Lt * A * w)) by ring. replace (3 * T * Lt * A * w) with (T * (3 * Lt * A * w)) by ring. apply Rmult_le_compat_r; [|exact HC].
      repeat apply Rmult_le_pos; lra. }
    lra.
  - assert (0 <= Lt * tau) by (apply Rmult_le_pos; lra). lra.
Qed.
(** the slope at a computed time near te *)
Lemma slope_at t te x y j : length x = n -> bnd n x B -> f wd t x = Ret y -> Rabs te <= A - 1 -> Rabs (t - te) <= tau -> (j < n)%nat ->
  Rabs (cmpR y j) <= Gp /\ Rabs (cmpR y j - cmpR (g te x) j) <= phi + Lt * tau.
Proof.
  intros L BX E TE TT J. destruct basics as (B1 & B2 & B3 & B4 & B5 & B6). pose proof (abs_shift _ _ _ _ TT TE).
  apply (slope_nearG t te x y tau j); try assumption; lra.
Qed.
Lemma scaled hh fj gj : Rabs (fj - gj) <= phi + Lt * tau -> 0 <= hh <= h -> Rabs (hh * fj - hh * gj) <= h * (phi + Lt * tau).
Proof. intros H HH. rewrite <- Rmult_minus_distr_l. apply mul_le; [rewrite Rabs_right; lra|exact H]. Qed.

Lemma inv_step k s y : (k < count)%nat -> inv k s y -> exists s' a y', g_step (N:=FNum rnd) no_events f 2 s = (s', GRet a) /\ inv (S k) s' y' /\ (forall i, (i <= 2 * k)%nat -> y' i = y i).
Proof.
  intros HK (EH & EW & YU & TT & LY & ER & RUN & R1 & RS). destruct basics as (T00 & A1 & TA0 & TA1 & QW & EB & PL).
  assert (LU : length (g_u s) = n) by (rewrite <- YU; apply LY; lia).
  destruct (step_eq s LU EH EW) as (f0 & v1 & f1 & u2 & f2 & v2 & a & EF0 & LF0 & LV1 & CV1 & EF1 & LF1 & LU2 & CU2 & EF2 & LF2 & LV2 & CV2 & ES).
  { intros R. rewrite ER in R. apply Nat.ltb_lt in R. destruct (RUN R) as (Q1 & Q2 & Q3 & _). repeat split; assumption. }
  (* times *)
  pose proof (pos_INR k) as PK. pose proof (Rabs_pos t0) as PT. assert (W0 : 0 <= w) by lra.
  assert (KC : INR k + 1 <= INR count) by (rewrite <- S_INR; apply le_INR; lia).
  assert (KH : (INR k + 1) * h <= T) by (eapply Rle_trans; [|exact HC]; apply Rmult_le_compat_r; lra).
  assert (KH0 : 0 <= INR k * h) by (apply Rmult_le_pos; lra).
  assert (WA : 0 <= w * A) by (apply Rmult_le_pos; lra).
  assert (CA : (2 * INR k + 3) * (w * A) <= tau). { replace tau with (3 * INR count * (w * A)) by ring. apply Rmult_le_compat_r; lra. }
  assert (TE0 : Rabs (t0 + INR k * h) <= A - 1) by (eapply Rle_trans; [apply Rabs_triang|]; rewrite (Rabs_right (INR k * h)) by lra; lra).
  assert (TEh : Rabs (t0 + INR k * h + h / 2) <= A - 1) by (rewrite Rplus_assoc; eapply Rle_trans; [apply Rabs_triang|]; rewrite (Rabs_right (INR k * h + h / 2)) by lra; lra).
  assert (TE1 : Rabs (t0 + INR k * h + h) <= A - 1) by (rewrite Rplus_assoc; eapply Rle_trans; [apply Rabs_triang|]; rewrite (Rabs_right (INR k * h + h)) by lra; lra).
  assert (TT0 : Rabs (g_t s - (t0 + INR k * h)) <= tau) by (replace (2 * INR k * w * A) with ((2 * INR k + 3) * (w * A) - 3 * (w * A)) in TT by ring; lra).
  assert (TTh : Rabs (rnd (g_t s + h2) - (t0 + INR k * h + h / 2)) <= tau).
  { assert (Hh : Rabs (h / 2) <= h / 2) by (rewrite Rabs_right; lra). pose proof (rnd_err rnd u eta RD U0 E0 _ _ Hh) as D1. assert (D2 : w * (1 + h / 2) <= w * A) by (apply Rmult_le_compat_l; lra).
    assert (D3 : Rabs (g_t s + h2 - (t0 + INR k * h + h / 2)) <= (2 * INR k + 1) * (w * A)).
    { replace (g_t s + h2 - (t0 + INR k * h + h / 2)) with ((g_t s - (t0 + INR k * h)) + (h2 - h / 2)) by ring. eapply Rle_trans; [apply Rabs_triang|]. replace (2 * INR k * w * A) with (2 * INR k * (w * A)) in TT by ring. lra. }
    pose proof (abs_shift _ _ _ _ D3 TEh) as D4. assert (D5 : Rabs (g_t s + h2) <= A - 1 + A) by lra. pose proof (rnd_err rnd u eta RD U0 E0 _ _ D5) as D6.
    pose proof (abs_trans _ _ _ _ _ D6 D3) as D7. lra. }
  assert (TT1 : Rabs (rnd (g_t s + h) - (t0 + INR (S k) * h)) <= 2 * INR (S k) * w * A).
  { assert (D3 : Rabs (g_t s + h - (t0 + INR k * h + h)) <= 2 * INR k * (w * A)) by (replace (g_t s + h - (t0 + INR k * h + h)) with (g_t s - (t0 + INR k * h)) by ring; lra).
    pose proof (abs_shift _ _ _ _ D3 TE1) as D4. assert (D5 : Rabs (g_t s + h) <= A - 1 + A) by lra. pose proof (rnd_err rnd u eta RD U0 E0 _ _ D5) as D6.
    pose proof (abs_trans _ _ _ _ _ D6 D3) as D7. rewrite S_INR. replace (t0 + (INR k + 1) * h) with (t0 + INR k * h + h) by ring. lra. }
  (* the sequence *)
  set (y' := fun i => if (i <=? 2 * k)%nat then y i else if (i =? 2 * k + 1)%nat then v1 else u2).
  assert (Yold : forall i, (i <= 2 * k)%nat -> y' i = y i) by (intros i Hi; unfold y'; rewrite (proj2 (Nat.leb_le i (2 * k))) by lia; reflexivity).
  assert (Ymid : y' (2 * k + 1)%nat = v1) by (unfold y'; rewrite (proj2 (Nat.leb_gt (2 * k + 1) (2 * k))) by lia; rewrite Nat.eqb_refl; reflexivity).
  assert (Ynew : y' (2 * k + 2)%nat = u2) by (unfold y'; rewrite (proj2 (Nat.leb_gt (2 * k + 2) (2 * k))) by lia; rewrite (proj2 (Nat.eqb_neq (2 * k + 2) (2 * k + 1))) by lia; reflexivity).
  exists (mkG (N:=FNum rnd) (rnd (g_t s + h)) u2 v2 f2 true h wd), a, y'. split; [exact ES|]. split; [|exact Yold].
  unfold inv. cbn [g_h g_w g_u g_t g_v g_f g_run]. replace (2 * S k)%nat with (2 * k + 2)%nat by lia.
  split; [reflexivity|]. split; [reflexivity|]. split; [exact Ynew|]. split; [exact TT1|].
  split. { intros i Hi. destruct (Nat.le_gt_cases i (2 * k)) as [I1|I1]; [rewrite Yold by exact I1; apply LY; exact I1|]. assert (i = 2 * k + 1 \/ i = 2 * k + 2)%nat as [-> | ->] by lia; [rewrite Ymid; exact LV1|rewrite Ynew; exact LU2]. }
  split; [reflexivity|]. split. { intros _. repeat (split; [assumption|]). replace (2 * k + 2 - 1)%nat with (2 * k + 1)%nat by lia. rewrite Ymid. exact CV2. }
  assert (U2E : bnd n (g_u s) B -> bnd n v1 B -> forall j, (j < n)%nat -> Rabs (cmpR u2 j - (cmpR (g_u s) j + h * cmpR (g (t0 + INR k * h + h / 2) v1) j)) <= e).
  { intros BU BV j Hj. destruct (slope_at _ _ v1 f1 j LV1 BV EF1 TEh TTh Hj) as [S1 S2]. rewrite (CU2 j Hj).
    pose proof (full rnd u eta RD U0 E0 W1 h B Gp ltac:(lra) B0 ltac:(lra) _ _ (BU j Hj) S1) as F. pose proof (scaled h _ _ S2 ltac:(lra)) as SC.
    match goal with |- Rabs (?x - (?p + ?q)) <= _ => replace (x - (p + q)) with ((x - (p + h * cmpR f1 j)) + (h * cmpR f1 j - q)) by ring end. eapply Rle_trans; [apply Rabs_triang|]. lra. }
  assert (H2 : 0 <= h / 2 <= h) by lra.
  split.
  - intros _ BY j Hj. destruct k as [|k].
    + change (2 * 0 + 1)%nat with 1%nat in Ymid. rewrite Ymid. change (2 * 0)%nat with 0%nat in *. rewrite (Yold 0%nat) in * by lia. rewrite YU in *.
      change (INR 0) with 0 in *. rewrite Rmult_0_l, Rplus_0_r in TE0, TT0. destruct (slope_at _ _ (g_u s) f0 j LU BY EF0 TE0 TT0 Hj) as [S1 S2]. rewrite (CV1 j Hj). rewrite ER. cbn [Nat.ltb Nat.leb].
      destruct (halves rnd u eta RD U0 E0 W1 h B Gp ltac:(lra) B0 ltac:(lra) (cmpR (g_u s) j) (cmpR f0 j) (BY j Hj) S1) as (_ & F & _). pose proof (scaled (h / 2) _ _ S2 H2) as SC.
      match goal with |- Rabs (?x - (?p + ?q)) <= _ => replace (x - (p + q)) with ((x - (p + h / 2 * cmpR f0 j)) + (h / 2 * cmpR f0 j - q)) by ring end. eapply Rle_trans; [apply Rabs_triang|]. lra.
    + rewrite (Yold 0%nat), (Yold 1%nat) in * by lia. apply R1; [lia|exact BY|exact Hj].
  - intros i Hi BI BI1 j Hj. destruct (Nat.le_gt_cases (i + 2) (2 * k)) as [I1|I1].
    { rewrite (Yold i), (Yold (i + 1)%nat), (Yold (i + 2)%nat) in * by lia. apply RS; assumption. }
    destruct (Nat.eq_dec i (2 * k)) as [->|NE].
    + rewrite Ymid, Ynew, (Yold (2 * k)%nat) in * by lia. rewrite YU in *. replace (2 * (h / 2)) with h by field. replace (t0 + INR (2 * k + 1) * (h / 2)) with (t0 + INR k * h + h / 2) by (rewrite plus_INR, mult_INR; cbn [INR]; field).
      apply U2E; assumption.
    + assert (K1 : (1 <= k)%nat) by lia. assert (i = 2 * k - 1)%nat as -> by lia. replace (2 * k - 1 + 1)%nat with (2 * k)%nat in * by lia. replace (2 * k - 1 + 2)%nat with (2 * k + 1)%nat by lia.
      rewrite Ymid, (Yold (2 * k)%nat), (Yold (2 * k - 1)%nat) in * by lia. rewrite YU in *. destruct (RUN K1) as (_ & _ & EF & CV). rewrite EF0 in EF. injection EF as ->.
      replace (2 * (h / 2)) with h by field. replace (t0 + INR (2 * k) * (h / 2)) with (t0 + INR k * h) by (rewrite mult_INR; cbn [INR]; field).
      destruct (slope_at _ _ (g_u s) _ j LU BI1 EF0 TE0 TT0 Hj) as [S1 S2]. rewrite (CV1 j Hj). rewrite ER, (proj2 (Nat.ltb_lt 0 k) K1). rewrite (CV j Hj).
      destruct (halves rnd u eta RD U0 E0 W1 h B Gp ltac:(lra) B0 ltac:(lra) _ _ (BI j Hj) S1) as (_ & _ & F). pose proof (scaled h _ _ S2 ltac:(lra)) as SC.
      match goal with |- Rabs (?x - (?p + ?q)) <= _ => replace (x - (p + q)) with ((x - (p + h * cmpR (g_f s) j)) + (h * cmpR (g_f s) j - q)) by ring end. eapply Rle_trans; [apply Rabs_triang|]. lra.
Qed.
Lemma inv_run (s : st) : length (g_u s) = n -> g_w s = wd -> g_t s = t0 -> forall k, (k <= count)%nat ->
  exists s' y, g_steps (N:=FNum rnd) no_events f 2 k (g_size (N:=FNum rnd) h s) = Some s' /\ inv k s' y /\ y 0%nat = g_u s.
Proof.
  intros LU EW ET. assert (SL : forall k (q q' : st), g_steps (N:=FNum rnd) no_events f 2 k q = Some q' -> forall q2 a, g_step (N:=FNum rnd) no_events f 2 q' = (q2, GRet a) -> g_steps (N:=FNum rnd) no_events f 2 (S k) q = Some q2).
  { induction k as [|k IH]; intros q q' E q2 a E2.
    - cbn [g_steps] in E. injection E as <-. cbn [g_steps]. rewrite E2. reflexivity.
    - cbn [g_steps] in E. destruct (g_step (N:=FNum rnd) no_events f 2 q) as [q1 [a1| |]] eqn:E1; try discriminate E. cbn [g_steps]. rewrite E1. apply (IH q1 q' E q2 a E2). }
  induction k as [|k IH]; intros HK.
  - exists (g_size (N:=FNum rnd) h s), (fun _ => g_u s). split; [reflexivity|]. split; [|reflexivity]. unfold inv. cbn [g_size g_h g_w g_u g_t g_v g_f g_run].
    split; [reflexivity|]. split; [exact EW|]. split; [reflexivity|]. split.
    { rewrite ET. cbn [INR]. replace (t0 - (t0 + 0 * h)) with 0 by ring. rewrite Rabs_R0. lra. }
    split; [intros; exact LU|]. split; [reflexivity|]. split; [intros; lia|]. split; [intros; lia|]. intros i Hi. lia.
  - destruct (IH ltac:(lia)) as (s1 & y & E1 & I1 & Y1). destruct (inv_step k s1 y ltac:(lia) I1) as (s2 & a & y' & E2 & I2 & YY). exists s2, y'. split; [apply (SL k _ s1 E1 s2 a E2)|]. split; [exact I2|].
    rewrite YY by lia. exact Y1.
Qed.
End Run.
