(** ExtFacts5.v - the reference solvers of the library. *)
From Coq Require Import List Arith Lia Bool ZArith QArith Qcanon.
From Verif Require Import Base BaseFacts VecModel VOps NewtFacts RkModel RkSpec RkFacts RkFacts2 RkFacts3 StepModel StepSpec StepFacts2 ExtModel ExtSpec ExtFacts ExtFacts2 ExtFacts3 ExtFacts4.
Import ListNotations.
Local Open Scope nat_scope.
Canonical Structure QcNum.

Section RkSafe.
Context {N : Num} {W : Type} (ev : events N W) (f : W -> nT N -> list (nT N) -> Outcome (list (nT N))) (co : coeffs N) (stages n : nat).
Hypothesis WF : wf_table co stages 1.
Hypothesis GR : forall w, safe_rhs n (f w).
Hypothesis EV : (forall x t w, ev_start ev x t w <> UB) /\ (forall x y t w, length x = n -> length y = n -> ev_end ev x y t w = Throw \/ exists w' er, ev_end ev x y t w = Ret (w', er) /\ length (ev_x er) = n).
Definition rready (s : rkst N W) : Prop := length (rk_x s) = n /\ (rk_out s = out_empty \/ (rk_h s <> None /\ shaped (rk_out s) stages n 1)).
Lemma rk_step_safe h (s : rkst N W) : rready s -> rk_step ev f co n h s = Throw \/ exists s' a b, rk_step ev f co n h s = Ret (s', a, b) /\ rready s'.
Proof.
  intros (L & R). unfold rk_step.
  assert (RI : rk_t (rk_init co n h s) = rk_t s /\ rk_x (rk_init co n h s) = rk_x s /\ rk_w (rk_init co n h s) = rk_w s /\ (exists h', rk_h (rk_init co n h s) = Some h') /\ shaped (rk_out (rk_init co n h s)) stages n 1).
  { unfold rk_init. destruct R as [R|[RH RS]].
    - rewrite R. simpl. repeat (split; [reflexivity|]). split; [eauto|]. assert (LC : length (co_c co) + 1 = stages) by apply WF. rewrite <- LC. apply out_new_shaped.
    - assert (OE : out_is_empty (rk_out s) = false).
      { unfold out_is_empty. destruct RS as [L' _]. assert (0 < stages) by apply WF. destruct (o_k (rk_out s)); [simpl in L'; lia|reflexivity]. }
      rewrite OE. repeat (split; [reflexivity|]). split; [destruct (rk_h s); [eauto|contradiction]|exact RS]. }
  destruct RI as (R1 & R2 & R3 & (h' & R4) & R5). rewrite R4, R1, R2, R3.
  destruct (ev_start ev (rk_x s) (rk_t s) (rk_w s)) as [w1| |] eqn:ES; [|left; reflexivity|exfalso; exact (proj1 EV _ _ _ ES)]. cbn [obind].
  destruct (compute_safe co stages n 1 (f w1) (rk_x s) (rk_t s) h' WF (GR w1) L _ R5) as [(o & log & EC & SO & _)|(EC & _)]; rewrite EC; [|left; reflexivity].
  cbn [obind fst snd]. destruct SO as (Sk & Sx & Sb & Uk & Ux). rewrite (rd_ok _ 0 []) by lia. cbn [obind].
  destruct (proj2 EV (rk_x s) (nth 0 (o_x2 o) []) (nadd N (rk_t s) h') w1 L ltac:(apply Ux, nth_In; lia)) as [E1|(w2 & er & E1 & LE)]; rewrite E1; [left; reflexivity|]. cbn [obind].
  rewrite wr_ok by lia. cbn [obind]. right. eexists _, _, _. split; [reflexivity|]. split; [exact LE|]. right. split; [discriminate|].
  split; [exact Sk|]. split; [cbn; rewrite upd_length; exact Sx|]. split; [exact Sb|]. split; [exact Uk|]. cbn. intros v V. destruct (In_upd _ _ _ _ V) as [->|V']; [exact L|exact (Ux _ V')].
Qed.
Lemma rk_steps_safe k : forall (s : nT N * rkst N W), rready (snd s) -> rs_steps (rk_ref ev f co n) k s = Throw \/ exists s', rs_steps (rk_ref ev f co n) k s = Ret s' /\ rready (snd s').
Proof.
  induction k as [|k I]; intros s R; [right; exists s; auto|]. cbn [rs_steps rk_ref rs_do]. destruct (rk_step_safe (fst s) (snd s) R) as [E|(s' & a & b & E & R')]; rewrite E; [left; reflexivity|]. cbn [obind]. apply I. exact R'.
Qed.
Theorem rk_ref_safe : ref_safe (rk_ref ev f co n) n.
Proof.
  intros t x h k s L. unfold ref_call. cbn [rk_ref rs_set rs_size obind].
  destruct (rk_steps_safe k (ndiv N h (nnat k), rk_set ev t x (snd s))) as [E|(s' & E & R)]; [split; [exact L|left; reflexivity]| |]; cbn [fst snd]; first [rewrite E|(unfold rk_ref in E; rewrite E)]; [left; reflexivity|].
  right. cbn [obind rs_get]. exists s', (rk_x (snd s')). split; [reflexivity|]. apply R.
Qed.
End RkSafe.

(** fixed Runge-Kutta steps, exact arithmetic *)
Section RkVal.
Context {W : Type} (f : W -> Qc -> list Qc -> Outcome (list Qc)) (co : coeffs QcNum) (stages n : nat).
Hypothesis WF : wf_table co stages 1.
Hypothesis Last : co_last co = (-1)%Z.
Lemma rs_rk h k : forall s : rkst QcNum W, rs_steps (rk_ref (N:=QcNum) no_events f co n) k (h, s) = (r <- rk_steps (N:=QcNum) no_events f co n h k s ;; Ret (h, fst r)).
Proof.
  induction k as [|k I]; intros s; [reflexivity|]. cbn [rs_steps rk_steps]. unfold rk_ref at 1. cbn [rs_do fst snd]. destruct (rk_step (N:=QcNum) no_events f co n h s) as [[[s' a] b]| |]; [|reflexivity|reflexivity]. cbn [obind].
  unfold rk_ref in I |- *. rewrite I. destruct (rk_steps (N:=QcNum) no_events f co n h k s') as [[s2 l]| |]; reflexivity.
Qed.
Theorem rk_reference w (t : Qc) x (h : Qc) k (s : Qc * rkst QcNum W) : good_rhs (N:=QcNum) n (f w) -> rk_w (snd s) = w -> length x = n ->
  exists s' v traj, ref_result (N:=QcNum) (rk_ref (N:=QcNum) no_events f co n) t x h k s s' v /\ rk_w (snd s') = w /\ traj 0 = (t, x) /\ snd (traj k) = v /\
    forall i, i < k -> textbook_step co stages n (f w) (h / qn k)%Qc (traj i) (traj (S i)).
Proof.
  intros GR EW L. 
  assert (RD : ready stages n (h / qn k)%Qc (rk_set (N:=QcNum) no_events t x (snd s))) by (split; [exact L|left; reflexivity]).
  destruct (rk_steps_ok f co stages n (h / qn k)%Qc WF Last w GR k (rk_set (N:=QcNum) no_events t x (snd s)) EW RD) as (s' & posts & traj & E & RD' & P & T0 & TK & TT).
  exists ((h / qn k)%Qc, s'), (rk_x s'), traj. split.
  - exists (fst s, rk_set (N:=QcNum) no_events t x (snd s)). split; [reflexivity|]. split; [|reflexivity]. cbn [rs_size rk_ref fst snd].
    rewrite nnat_qn. pose proof (rs_rk (h / qn k)%Qc k (rk_set (N:=QcNum) no_events t x (snd s))) as Z. unfold rk_ref in Z. cbn [ndiv QcNum]. etransitivity; [exact Z|]. change (nT QcNum) with Qc in *. rewrite E. reflexivity.
  - split.
    + assert (G : forall c hh (a b : rkst QcNum W) l, rk_steps (N:=QcNum) no_events f co n hh c a = Ret (b, l) -> rk_w b = rk_w a).
      { clear. induction c as [|c I]; intros hh a b l E; cbn in E; [inversion E; reflexivity|]. binv E. destruct r as [[a1 o1] p1]. binv E. inversion E; subst. destruct r as [b1 l1]. cbn. rewrite (I _ _ _ _ E1).
        unfold rk_step in E0. clear E1 I. 
        assert (IW : rk_w (rk_init (N:=QcNum) co n hh a) = rk_w a) by (unfold rk_init; destruct (out_is_empty _); reflexivity).
        destruct (rk_h (rk_init (N:=QcNum) co n hh a)) as [h0|]; [|discriminate E0]. cbn [no_events ev_start obind] in E0. binv E0. binv E0. cbn [no_events ev_end obind] in E0. binv E0. inversion E0; subst. exact IW. }
      exact (eq_trans (G _ _ _ _ _ E) EW).
    + split; [exact T0|]. split; [rewrite TK; reflexivity|exact TT].
Qed.
End RkVal.

(** * Gragg *)
Section Gragg.
Context {W : Type} (f : W -> Qc -> list Qc -> Outcome (list Qc)) (n : nat) (w : W) (t h : Qc) (x : list Qc).
Hypothesis GR : good_rhs (N:=QcNum) n (f w).
Hypothesis LX : length x = n.
Notation two := (qn 2).
Notation F := (f w).
Lemma two_neq : two <> 0%Qc. Proof. apply qn_neq0. lia. Qed.
Lemma ladd_c (u v : list Qc) (b : Qc) : length u = n -> length v = n -> exists z, ladd (N:=QcNum) u (lscale v b) = Ret z /\ length z = n /\ forall c, c < n -> cmp_ z c = (cmp_ u c + b * cmp_ v c)%Qc.
Proof.
  intros LU LV. destruct (ladd_ls u v 1%Qc b n LU LV) as (z & E & L & V). exists z. split; [|split; [exact L|intros c C; rewrite V by exact C; ring]].
  rewrite <- E. f_equal. unfold lscale. symmetry. transitivity (map (fun x : Qc => x) u); [apply map_ext; intros a; cbn; change (@eq Qc (a * 1)%Qc a); ring|apply map_id].
Qed.
Lemma qn2S k : qn (2 * S k) = (qn (2 * k) + qn 2)%Qc.
Proof. replace (2 * S k) with (S (S (2 * k))) by lia. assert (Q2 : qn 2 = (1 + 1)%Qc) by (apply Qc_is_canon; reflexivity). rewrite Q2, (qn_S (S (2 * k))), (qn_S (2 * k)). ring. Qed.
Definition ginv (k : nat) (s : gst QcNum W) (y slope : nat -> list Qc) : Prop :=
  midpoint n F t h y slope (2 * k) /\ y 0 = x /\ length (y (2 * k + 1)) = n /\ g_t s = (t + qn k * h)%Qc /\ g_u s = y (2 * k) /\ g_h s = h /\ g_w s = w /\
  (if k =? 0 then g_run s = false else g_run s = true /\ g_f s = slope (2 * k) /\ length (g_v s) = n /\ forall c, c < n -> cmp_ (g_v s) c = (cmp_ (y (2 * k + 1)%nat) c - h / two * cmp_ (slope (2 * k)%nat) c)%Qc).
Lemma ginv0 (s : gst QcNum W) : g_w s = w -> exists y slope, ginv 0 (g_size (N:=QcNum) h (g_set (N:=QcNum) t x s)) y slope.
Proof.
  intros EW. destruct (GR t x LX) as (f0 & E0 & L0). change (nT QcNum) with Qc in *.
  set (y1 := map (fun j => (cmp_ x j + h / two * cmp_ f0 j)%Qc) (seq 0 n)).
  exists (fun i => match i with O => x | _ => y1 end), (fun _ => f0).
  assert (Q0 : qn 0 = 0%Qc) by (apply Qc_is_canon; reflexivity).
  split; [split; [|split]|].
  - intros i I. assert (i = 0) by lia. subst i. split; [exact LX|]. rewrite Q0. replace (t + 0 * (h / two))%Qc with t by ring. exact E0.
  - intros j J. unfold y1, cmp_ at 1. rewrite nth_map_seq by exact J. reflexivity.
  - intros i I. lia.
  - split; [reflexivity|]. split; [unfold y1; cbn; rewrite map_length, seq_length; reflexivity|]. split; [cbn; rewrite Q0; ring|]. split; [reflexivity|]. split; [reflexivity|]. split; [exact EW|reflexivity].
Qed.
Lemma gstep_ok k (s : gst QcNum W) y slope : ginv k s y slope ->
  exists s' y' slope' a, g_step (N:=QcNum) no_events f two s = (s', GRet a) /\ ginv (S k) s' y' slope' /\ (forall i, i <= 2 * k + 1 -> y' i = y i) /\ a = mkPost (N:=QcNum) h true false false 0%Qc None 0%Z.
Proof.
  intros ((M1 & M2 & M3) & Y0 & LY & ET & EU & EH & EW & R). set (h2 := (h / two)%Qc) in *.
  assert (LU : length (y (2 * k)) = n) by (apply M1; lia). assert (LS : length (slope (2 * k)) = n).
  { destruct (M1 (2 * k) ltac:(lia)) as (_ & E). destruct (GR (t + qn (2 * k) * h2)%Qc (y (2 * k)) LU) as (z & E' & LZ). change (nT QcNum) with Qc in *. rewrite E in E'. inversion E'; subst. exact LZ. }
  assert (TK : (t + qn k * h = t + qn (2 * k) * h2)%Qc). { replace (2 * k) with (2 * k)%nat by lia. rewrite qn_mul. unfold h2. field. exact two_neq. }
  assert (FK : F (t + qn k * h)%Qc (y (2 * k)) = Ret (slope (2 * k))). { rewrite TK. apply M1. lia. }
  destruct (GR (t + qn k * h + h2)%Qc (y (2 * k + 1)) LY) as (f1 & E1 & L1). change (nT QcNum) with Qc in *.
  destruct (ladd_c (y (2 * k)) f1 h LU L1) as (u2 & EU2 & LU2 & VU2).
  destruct (GR (t + qn k * h + h)%Qc u2 LU2) as (f2 & E2 & L2). change (nT QcNum) with Qc in *.
  destruct (ladd_c (y (2 * k + 1)) f2 h2 LY L2) as (v2 & EV2 & LV2 & VV2).
  set (y3 := map (fun j => (cmp_ (y (2 * k + 1)%nat) j + h * cmp_ f2 j)%Qc) (seq 0 n)).
  set (y' := fun i => if i <=? 2 * k + 1 then y i else if i =? 2 * k + 2 then u2 else y3).
  set (sl' := fun i => if i <=? 2 * k then slope i else if i =? 2 * k + 1 then f1 else f2).
  assert (V1 : exists v1, ladd (N:=QcNum) (if g_run s then g_v s else g_u s) (lscale (slope (2 * k)) h2) = Ret v1 /\ v1 = y (2 * k + 1)).
  { assert (LV : length (if g_run s then g_v s else g_u s) = n). { destruct (Nat.eqb_spec k 0); [rewrite R, EU; exact LU|destruct R as (-> & _ & LV & _); exact LV]. }
    destruct (ladd_c _ _ h2 LV LS) as (v1 & A & B & C). exists v1. split; [exact A|]. apply (list_ext 0%Qc); [exact (eq_trans B (eq_sym LY))|]. intros c HC. fold (cmp_ v1 c). change (nT QcNum) with Qc in *. rewrite B in HC. rewrite C by exact HC.
    destruct (Nat.eqb_spec k 0) as [->|NK].
    - rewrite R, EU. symmetry. apply (M2 c HC).
    - destruct R as (-> & _ & _ & VV). rewrite VV by exact HC. fold (cmp_ (y (2 * k + 1)) c). ring. }
  destruct V1 as (v1 & V1 & ->).
  assert (RF : (if g_run s then Ret (g_f s) else F (g_t s) (g_u s)) = Ret (slope (2 * k))).
  { destruct (Nat.eqb_spec k 0); [rewrite R, ET, EU; exact FK|destruct R as (-> & -> & _); reflexivity]. }
  eexists _, y', sl', _. split.
  - unfold g_step. cbn [no_events ev_start gcall]. rewrite EW, EH. cbn [ndiv QcNum]. fold h2. change (nT QcNum) with Qc in *. rewrite RF. cbn [gcall].
    match goal with |- context [g_v (if ?b then ?p else ?q)] => replace (g_v (if b then p else q)) with (if g_run s then g_v s else g_u s) by (destruct (g_run s); reflexivity) end. change (nT QcNum) with Qc in *. rewrite V1. cbn [gcall].
    rewrite ET, EU. cbn [nadd QcNum]. change (nT QcNum) with Qc in *. rewrite E1. cbn [gcall]. rewrite EU2. cbn [gcall]. rewrite E2. cbn [gcall]. rewrite EV2. cbn [gcall no_events ev_end ev_t ev_x ev_trunc ev_izf ev_type]. reflexivity.
  - assert (YE : forall i, i <= 2 * k + 1 -> y' i = y i) by (intros i I; unfold y'; destruct (Nat.leb_spec i (2 * k + 1)); [reflexivity|lia]).
    assert (Y2 : y' (2 * k + 2) = u2). { unfold y'. destruct (Nat.leb_spec (2 * k + 2) (2 * k + 1)); [lia|]. rewrite Nat.eqb_refl. reflexivity. }
    assert (Y3 : y' (2 * k + 3) = y3). { unfold y'. destruct (Nat.leb_spec (2 * k + 3) (2 * k + 1)); [lia|]. destruct (Nat.eqb_spec (2 * k + 3) (2 * k + 2)); [lia|reflexivity]. }
    assert (SE : forall i, i <= 2 * k -> sl' i = slope i) by (intros i I; unfold sl'; destruct (Nat.leb_spec i (2 * k)); [reflexivity|lia]).
    assert (S1 : sl' (2 * k + 1) = f1). { unfold sl'. destruct (Nat.leb_spec (2 * k + 1) (2 * k)); [lia|]. rewrite Nat.eqb_refl. reflexivity. }
    assert (S2 : sl' (2 * k + 2) = f2). { unfold sl'. destruct (Nat.leb_spec (2 * k + 2) (2 * k)); [lia|]. destruct (Nat.eqb_spec (2 * k + 2) (2 * k + 1)); [lia|reflexivity]. }
    assert (LY3 : length y3 = n) by (unfold y3; rewrite map_length, seq_length; reflexivity).
    assert (TQ1 : (t + qn (2 * k + 1) * h2 = t + qn k * h + h2)%Qc). { rewrite TK. rewrite Nat.add_1_r, qn_S. ring. }
    assert (TQ2 : (t + qn (2 * k + 2) * h2 = t + qn k * h + h)%Qc). { replace (2 * k + 2) with (2 * S k) by lia. rewrite qn2S, TK. unfold h2. field. exact two_neq. }
    split; [|split; [exact YE|reflexivity]].
    split; [split; [|split]|].
    + intros i I. destruct (Nat.eq_dec i (2 * k + 2)) as [->|N2]; [rewrite Y2, S2; split; [exact LU2|]; fold h2; rewrite TQ2; exact E2|].
      destruct (Nat.eq_dec i (2 * k + 1)) as [->|N1]; [rewrite YE, S1 by lia; split; [exact LY|]; fold h2; rewrite TQ1; exact E1|].
      rewrite YE, SE by lia. apply M1. lia.
    + intros j J. rewrite !YE, SE by lia. apply M2. exact J.
    + intros i I j J. destruct (Nat.eq_dec i (2 * k + 1)) as [->|N2].
      * replace (2 * k + 1 + 2) with (2 * k + 3) by lia. replace (2 * k + 1 + 1) with (2 * k + 2) by lia. rewrite Y3, S2, YE by lia. unfold y3, cmp_ at 1. rewrite nth_map_seq by exact J. reflexivity.
      * destruct (Nat.eq_dec i (2 * k)) as [->|N1]; [rewrite Y2, S1, YE by lia; apply VU2; exact J|]. rewrite !YE, SE by lia. apply M3; [lia|exact J].
    + split; [rewrite YE by lia; exact Y0|]. replace (2 * S k + 1) with (2 * k + 3) by lia. replace (2 * S k) with (2 * k + 2) by lia. split; [rewrite Y3; exact LY3|].
      split; [cbn [g_t]; change (nT QcNum) with Qc; rewrite qn_S; ring|]. split; [cbn [g_u]; rewrite Y2; reflexivity|]. split; [reflexivity|]. split; [reflexivity|]. cbn [Nat.eqb].
      split; [reflexivity|]. split; [cbn [g_f]; rewrite S2; reflexivity|]. split; [exact LV2|]. cbn [g_v]. intros c C. rewrite VV2 by exact C. rewrite Y3, S2. assert (C3 : cmp_ y3 c = (cmp_ (y (2 * k + 1)%nat) c + h * cmp_ f2 c)%Qc) by (unfold y3, cmp_ at 1; rewrite nth_map_seq by exact C; reflexivity). rewrite C3. unfold h2. pose proof two_neq as TN. assert (Q2 : two = (1 + 1)%Qc) by (apply Qc_is_canon; reflexivity). rewrite Q2 in TN |- *. field. exact TN.
Qed.
Theorem gragg_steps count : forall (s : gst QcNum W), g_w s = w ->
  exists s' y slope, g_steps (N:=QcNum) no_events f two count (g_size (N:=QcNum) h (g_set (N:=QcNum) t x s)) = Some s' /\
    y 0 = x /\ midpoint n F t h y slope (2 * count) /\ g_t s' = (t + qn count * h)%Qc /\ g_u s' = y (2 * count) /\ g_w s' = w /\
    (forall half, g_state (N:=QcNum) false half s' = Ret (y (2 * count))) /\
    (0 < count -> exists z, g_state (N:=QcNum) true (1 / qn 2)%Qc s' = Ret z /\ length z = n /\
       forall c, c < n -> cmp_ z c = ((cmp_ (y (2 * count - 1)%nat) c + qn 2 * cmp_ (y (2 * count)%nat) c + cmp_ (y (2 * count + 1)%nat) c) / qn 4)%Qc).
Proof.
  intros s EW.
  assert (G : exists s' y slope, g_steps (N:=QcNum) no_events f two count (g_size (N:=QcNum) h (g_set (N:=QcNum) t x s)) = Some s' /\ ginv count s' y slope).
  { assert (SN : forall c (a b : gst QcNum W), g_steps (N:=QcNum) no_events f two c a = Some b -> g_steps (N:=QcNum) no_events f two (S c) a = match g_step (N:=QcNum) no_events f two b with (s', GRet _) => Some s' | _ => None end).
    { clear. induction c as [|c I]; intros a b E; cbn [g_steps] in E |- *.
      - inversion E; subst. destruct (g_step (N:=QcNum) no_events f two b) as [s' [p| |]]; reflexivity.
      - destruct (g_step (N:=QcNum) no_events f two a) as [s' [p| |]]; try discriminate. exact (I _ _ E). }
    induction count as [|k I].
    - destruct (ginv0 s EW) as (y & slope & G). exists (g_size (N:=QcNum) h (g_set (N:=QcNum) t x s)), y, slope. split; [reflexivity|exact G].
    - destruct I as (s1 & y & slope & E & G). destruct (gstep_ok _ _ _ _ G) as (s' & y' & sl' & a & E' & G' & _). exists s', y', sl'. split; [|exact G']. rewrite (SN _ _ _ E). rewrite E'. reflexivity. }
  destruct G as (s' & y & slope & E & (M & Y0 & LY & ET & EU & EH & EWW & R)). exists s', y, slope. split; [exact E|]. split; [exact Y0|]. split; [exact M|]. split; [exact ET|]. split; [exact EU|]. split; [exact EWW|].
  split; [intros half; unfold g_state; cbn; rewrite EU; reflexivity|].
  intros C0. destruct (Nat.eqb_spec count 0); [lia|]. destruct R as (RR & RF & LV & VV). unfold g_state. rewrite RR. cbn [andb].
  assert (LU : length (g_u s') = n) by (rewrite EU; apply M; lia).
  destruct (ladd_ls (g_u s') (g_v s') (1 / qn 2)%Qc (1 / qn 2)%Qc n LU LV) as (z & EZ & LZ & VZ). exists z. split; [exact EZ|]. split; [exact LZ|].
  intros c C. rewrite VZ by exact C. rewrite VV by exact C. change (nT QcNum) with Qc in *. rewrite EU. destruct M as (_ & _ & M3).
  specialize (M3 (2 * count - 1) ltac:(lia) c C). replace (2 * count - 1 + 2) with (2 * count + 1) in M3 by lia. replace (2 * count - 1 + 1) with (2 * count) in M3 by lia.
  rewrite M3. assert (Q4 : qn 4 = (qn 2 * qn 2)%Qc) by (apply Qc_is_canon; reflexivity). rewrite Q4.
  assert (Q2 : qn 2 = (1 + 1)%Qc) by (apply Qc_is_canon; reflexivity). pose proof two_neq as TN. rewrite Q2 in TN |- *. field. repeat split; first [assumption|intros Z0; qdiscr Z0].
Qed.
End Gragg.
(** a step that does not return leaves time and state as they were *)
Lemma gcall_inv {N W A} (s s' : gst N W) (o : Outcome A) k r : gcall s o k = (s', r) -> (exists a, o = Ret a /\ k a = (s', r)) \/ (s' = s /\ (r = GThrow \/ r = GUb)).
Proof. unfold gcall. destruct o as [a| |]; intros H; [left; eauto|right; inversion H; auto|right; inversion H; auto]. Qed.
Theorem gragg_step {N : Num} {W} (ev : events N W) f two (s s' : gst N W) r : g_step ev f two s = (s', r) ->
  match r with
  | GRet a => exists w1 f1 mid next er, ev_start ev (g_u s) (g_t s) (g_w s) = Ret w1 /\ f w1 (nadd N (g_t s) (ndiv N (g_h s) two)) mid = Ret f1 /\ ladd (g_u s) (lscale f1 (g_h s)) = Ret next /\
       ev_end ev (g_u s) next (nadd N (g_t s) (g_h s)) w1 = Ret (g_w s', er) /\ g_t s' = ev_t er /\ g_u s' = ev_x er /\ g_run s' = negb (ev_trunc er) /\
       a = mkPost (g_h s) true false (ev_trunc er) (n0 N) (ev_izf er) (ev_type er)
  | _ => g_t s' = g_t s /\ g_u s' = g_u s
  end.
Proof.
  unfold g_step. intros E.
  apply gcall_inv in E. destruct E as [(w1 & E1 & E)|(-> & [->| ->])]; [|split; reflexivity..].
  apply gcall_inv in E. destruct E as [(f0 & E2 & E)|(-> & [->| ->])]; [|destruct (g_run s); split; reflexivity..].
  apply gcall_inv in E. destruct E as [(v1 & E3 & E)|(-> & [->| ->])]; [|split; reflexivity..].
  apply gcall_inv in E. destruct E as [(f1 & E4 & E)|(-> & [->| ->])]; [|split; reflexivity..].
  apply gcall_inv in E. destruct E as [(u2 & E5 & E)|(-> & [->| ->])]; [|split; reflexivity..].
  apply gcall_inv in E. destruct E as [(f2 & E6 & E)|(-> & [->| ->])]; [|split; reflexivity..].
  apply gcall_inv in E. destruct E as [(v2 & E7 & E)|(-> & [->| ->])]; [|split; reflexivity..].
  apply gcall_inv in E. destruct E as [([w2 er] & E8 & E)|(-> & [->| ->])]; [|split; reflexivity..].
  inversion E; subst. exists w1, f1, v1, u2, er. cbn. auto 10.
Qed.
Section GraggRef.
Context {N : Num} {W : Type} (ev : events N W) (f : W -> nT N -> list (nT N) -> Outcome (list (nT N))) (n : nat) (smooth : bool) (half two : nT N).
Hypothesis GR : forall w, safe_rhs n (f w).
Hypothesis EV : (forall x t w, ev_start ev x t w <> UB) /\ (forall x y t w, length x = n -> length y = n -> ev_end ev x y t w = Throw \/ exists w' er, ev_end ev x y t w = Ret (w', er) /\ length (ev_x er) = n).
Definition gready (s : gst N W) : Prop := length (g_u s) = n /\ (g_run s = true -> length (g_v s) = n).
Lemma ladd_safe (u v : list (nT N)) : length u = n -> ladd u v = Throw \/ exists z, ladd u v = Ret z /\ length z = n.
Proof.
  intros L. unfold ladd. destruct (Nat.eq_dec (length u) (length v)) as [E|E].
  - right. rewrite lzip_ok by lia. eexists. split; [reflexivity|]. rewrite map_length, seq_length. exact L.
  - destruct (le_lt_dec (length u) (length v)) as [LE|LE].
    + right. rewrite lzip_ok by lia. eexists. split; [reflexivity|]. rewrite map_length, seq_length. exact L.
    + left. apply lzip_throw. lia.
Qed.
Lemma g_step_safe (s s' : gst N W) r : gready s -> g_step ev f two s = (s', r) -> r <> GUb /\ gready s'.
Proof.
  intros (LU & LV). unfold g_step.
  destruct (ev_start ev (g_u s) (g_t s) (g_w s)) as [w1| |] eqn:ES; [|cbn; intros E; inversion E; subst; split; [discriminate|split; assumption]|exfalso; exact (proj1 EV _ _ _ ES)]. cbn [gcall].
  set (mk := fun v fb => mkG (g_t s) (g_u s) v fb (g_run s) (g_h s) w1).
  assert (F0 : (if g_run s then Ret (g_f s) else f w1 (g_t s) (g_u s)) = Throw \/ exists f0, (if g_run s then Ret (g_f s) else f w1 (g_t s) (g_u s)) = Ret f0).
  { destruct (g_run s); [right; eauto|]. destruct (GR w1 (g_t s) (g_u s) LU) as [H|(y & H & _)]; [left|right]; eauto. }
  assert (RV : forall v fb, length v = n -> gready (mk v fb)) by (intros v fb H; split; [exact LU|intros _; exact H]).
  assert (LV0 : length (g_v (if g_run s then mk (g_v s) (g_f s) else mk (g_u s) (g_f s))) = n) by (destruct (g_run s) eqn:R; [exact (LV eq_refl)|exact LU]).
  unfold mk in LV0. destruct F0 as [F0|(f0 & F0)]; rewrite F0; [cbn [gcall]; intros E; inversion E; subst; split; [discriminate|destruct (g_run s); apply RV; exact LV0]|]. cbn [gcall].
  destruct (ladd_safe _ (lscale f0 (ndiv N (g_h s) two)) LV0) as [A1|(v1 & A1 & L1)]; rewrite A1; [cbn [gcall]; intros E; inversion E; subst; split; [discriminate|apply RV; exact LV0]|]. cbn [gcall].
  destruct (GR w1 (nadd N (g_t s) (ndiv N (g_h s) two)) v1 L1) as [A2|(f1 & A2 & L2)]; rewrite A2; [cbn [gcall]; intros E; inversion E; subst; split; [discriminate|apply RV; exact L1]|]. cbn [gcall].
  destruct (ladd_safe (g_u s) (lscale f1 (g_h s)) LU) as [A3|(u2 & A3 & L3)]; rewrite A3; [cbn [gcall]; intros E; inversion E; subst; split; [discriminate|apply RV; exact L1]|]. cbn [gcall].
  destruct (GR w1 (nadd N (g_t s) (g_h s)) u2 L3) as [A4|(f2 & A4 & L4)]; rewrite A4; [cbn [gcall]; intros E; inversion E; subst; split; [discriminate|apply RV; exact L1]|]. cbn [gcall].
  destruct (ladd_safe v1 (lscale f2 (ndiv N (g_h s) two)) L1) as [A5|(v2 & A5 & L5)]; rewrite A5; [cbn [gcall]; intros E; inversion E; subst; split; [discriminate|apply RV; exact L1]|]. cbn [gcall].
  destruct (proj2 EV (g_u s) u2 (nadd N (g_t s) (g_h s)) w1 LU L3) as [A6|(w2 & er & A6 & L6)]; rewrite A6; cbn [gcall]; intros E; inversion E; subst; (split; [discriminate|]); [apply RV; exact L5|].
  split; [exact L6|intros _; exact L5].
Qed.
Theorem gragg_ref_safe : ref_safe (gragg_ref ev f smooth half two) n.
Proof.
  intros t x h k s L. unfold ref_call. cbn [gragg_ref rs_set rs_size obind].
  assert (G : forall k s, gready s -> rs_steps (gragg_ref ev f smooth half two) k s = Throw \/ exists s', rs_steps (gragg_ref ev f smooth half two) k s = Ret s' /\ gready s').
  { clear k s x L t h. induction k as [|k I]; intros s R; [right; exists s; auto|]. cbn [rs_steps gragg_ref rs_do]. destruct (g_step ev f two s) as [s' r] eqn:ES. destruct (g_step_safe _ _ _ R ES) as (A & B).
    destruct r; [cbn [obind]; apply I; exact B|left; reflexivity|contradiction]. }
  destruct (G k (g_size (ndiv N h (nnat k)) (g_set t x s))) as [E|(s' & E & R)]; [split; [exact L|discriminate]| |]; rewrite E; [left; reflexivity|]. cbn [obind rs_get gragg_ref]. unfold g_state.
  destruct R as (R1 & R2). destruct smooth; cbn [andb]; [|right; exists s', (g_u s'); auto]. destruct (g_run s') eqn:ER; cbv iota; cbn [obind]; [|right; exists s', (g_u s'); auto].
  destruct (ladd_safe (lscale (g_u s') half) (lscale (g_v s') half)) as [A|(z & A & LZ)]; [rewrite lscale_length; exact R1| |]; cbv iota; rewrite A; [left; reflexivity|right]. exists s', z. auto.
Qed.
End GraggRef.
Theorem gragg_reference {W : Type} (f : W -> Qc -> list Qc -> Outcome (list Qc)) (n : nat) (smooth : bool) (w : W) (t : Qc) (x : list Qc) (h : Qc) (k : nat) (s : gst QcNum W) :
  good_rhs (N:=QcNum) n (f w) -> g_w s = w -> length x = n -> 0 < k ->
  exists s' v y slope, ref_result (N:=QcNum) (gragg_ref (N:=QcNum) no_events f smooth (1 / qn 2)%Qc (qn 2)) t x h k s s' v /\ g_w s' = w /\ y 0 = x /\
    midpoint n (f w) t (h / qn k)%Qc y slope (2 * k) /\
    forall c, c < n -> cmp_ v c = if smooth then ((cmp_ (y (2 * k - 1)%nat) c + qn 2 * cmp_ (y (2 * k)%nat) c + cmp_ (y (2 * k + 1)%nat) c) / qn 4)%Qc else cmp_ (y (2 * k)%nat) c.
Proof.
  intros GR EW L K. destruct (gragg_steps f n w t (h / qn k)%Qc x GR L k s EW) as (s' & y & slope & E & Y0 & M & ET & EU & EWW & ST & SM). specialize (SM K). destruct SM as (z & EZ & LZ & VZ).
  assert (RS : forall k (a b : gst QcNum W), g_steps (N:=QcNum) no_events f (qn 2) k a = Some b -> rs_steps (gragg_ref (N:=QcNum) no_events f smooth (1 / qn 2)%Qc (qn 2)) k a = Ret b).
  { clear. induction k as [|k I]; intros a b E; cbn [g_steps] in E; [inversion E; reflexivity|]. cbn [rs_steps gragg_ref rs_do]. change (nT QcNum) with Qc in *. destruct (g_step (N:=QcNum) no_events f (qn 2) a) as [s' [p| |]]; try discriminate. cbn [obind]. exact (I _ _ E). }
  apply RS in E. exists s', (if smooth then z else y (2 * k)), y, slope. split.
  - exists (g_set (N:=QcNum) t x s). split; [reflexivity|]. split.
    + rewrite nnat_qn. exact E.
    + cbn [gragg_ref rs_get]. destruct smooth; [exact EZ|apply ST].
  - split; [exact EWW|]. split; [exact Y0|]. split; [exact M|]. intros c C. destruct smooth; [exact (VZ c C)|reflexivity].
Qed.

Theorem gragg_new_size (W : Type) (f : W -> Qc -> list Qc -> Outcome (list Qc)) (n : nat) (h : Qc) (s : gst QcNum W) : good_rhs (N:=QcNum) n (f (g_w s)) -> length (g_u s) = n ->
  forall count, exists s' y slope, g_steps (N:=QcNum) no_events f (qn 2) count (g_size (N:=QcNum) h s) = Some s' /\
    y 0 = g_u s /\ midpoint n (f (g_w s)) (g_t s) h y slope (2 * count) /\ g_t s' = (g_t s + qn count * h)%Qc /\ g_u s' = y (2 * count) /\ g_w s' = g_w s /\
    (forall half, g_state (N:=QcNum) false half s' = Ret (y (2 * count))) /\
    (0 < count -> exists z, g_state (N:=QcNum) true (1 / qn 2)%Qc s' = Ret z /\ length z = n /\
       forall c, c < n -> cmp_ z c = ((cmp_ (y (2 * count - 1)%nat) c + qn 2 * cmp_ (y (2 * count)%nat) c + cmp_ (y (2 * count + 1)%nat) c) / qn 4)%Qc).
Proof. intros GR L count. exact (gragg_steps f n (g_w s) (g_t s) h (g_u s) GR L count s eq_refl). Qed.
