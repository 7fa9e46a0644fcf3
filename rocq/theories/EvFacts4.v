(** EvFacts4.v - the start of a step and runs of the linear event controller. *)
From Coq Require Import List Arith Bool ZArith QArith Qcanon Lia.
From Verif Require Import Base BaseFacts VecModel VOps RkModel NewtFacts RkFacts2 RkFacts4 EvModel EvSpec EvFacts EvFacts2 EvFacts3.
Import ListNotations.
Local Open Scope nat_scope.

Theorem start_fresh {P} (m : evrhs QcNum P) nz p x1 t1 c z : c_clean c = true -> 0 < nz -> zfCount m = nz -> length (zfFlags m) = nz ->
  zeroFunctions m p t1 x1 = Ret z -> length z = nz ->
  exists c', c_start m p x1 t1 c = Ret c' /\ sized m c' nz /\ c_zf1 c' = z /\ c_t1 c' = t1 /\
    (consistent m c' nz <-> forall i, i < nz -> near_side (nth i (zfFlags m) 0%Z) (nth i z 0%Qc)).
Proof.
  intros CL NP CN LF EZ LZ. unfold c_start, c_init. cbv zeta. cbn [c_clean c_haveZf c_rec c_flags c_state c_zf1 c_zf2 c_t1]. rewrite CL, CN. cbn [negb].
  replace (0 <? nz) with true by (symmetry; apply Nat.ltb_lt; exact NP). cbn [negb]. rewrite EZ. cbn [obind c_state c_flags c_rec c_zf2]. change (nT QcNum) with Qc in *. rewrite LZ.
  match goal with |- exists c', obind (ofor 0 nz ?b ?s) _ = _ /\ _ =>
    destruct (ofor_inv (fun k (q : list Z) => length q = nz /\ forall i, i < k -> nth i q 0%Z = sgnf (N:=QcNum) (nth i z 0%Qc) (nth i (zfFlags m) 0%Z)) 0 nz b s) as (st & E & A & B) end.
  - lia.
  - split; [apply repeat_length|intros; lia].
  - intros k q (K0 & K) (LQ & H). change (nT QcNum) with Qc. rewrite (rdat_ok (A:=Qc) z k 0%Qc) by lia. cbn [obind]. rewrite (rd_ok (zfFlags m) k 0%Z) by lia. cbn [obind].
    rewrite (wr_ok q k) by lia. eexists. split; [reflexivity|]. rewrite upd_length. split; [exact LQ|]. intros i Hi. rewrite nth_upd, LQ, (proj2 (Nat.ltb_lt k nz) K).
    destruct (Nat.eqb_spec i k) as [->|Q]; [reflexivity|apply H; lia].
  - rewrite E. cbn [obind]. eexists. split; [reflexivity|].
    assert (S : sized m (mkCtl (N:=QcNum) false true (existsb recomputed (zfFlags m)) z (vresize QcNum nz (c_zf2 c)) (zfFlags m) st t1) nz) by (unfold sized; cbn; repeat split; auto).
    split; [exact S|]. split; [reflexivity|]. split; [reflexivity|]. split.
    + intros (_ & H) i Hi. apply (agrees_near _ (nth i st 0%Z)). exact (H i Hi).
    + intros H. split; [exact S|]. intros i Hi. unfold ev_flag, ev_state, ev_z1. cbn [c_flags c_state c_zf1]. rewrite (B i Hi). apply near_agrees, H, Hi.
Qed.
Lemma start_again {P} (m : evrhs QcNum P) nz p x1 t1 c : consistent m c nz ->
  exists c', c_start m p x1 t1 c = Ret c' /\ consistent m c' nz /\ c_t1 c' = t1 /\ c_zf1 c' = c_zf1 c /\ c_state c' = c_state c /\ c_flags c' = c_flags c.
Proof.
  intros CO. unfold c_start. cbn [c_clean]. destruct (proj1 CO) as (NP & CN & CF & LF & CL & HZ & CR & L1 & LS). rewrite CL. cbn [negb].
  eexists. split; [reflexivity|]. split; [|split; [reflexivity|split; [reflexivity|split; reflexivity]]].
  split; [unfold sized; cbn; repeat split; auto|]. exact (proj2 CO).
Qed.
Lemma crosses_dec c z2 nz : (forall i, i < nz -> ~ crosses_at c z2 i) \/ (exists i, i < nz /\ crosses_at c z2 i).
Proof.
  induction nz as [|n IH]; [left; intros; lia|].
  assert (D : forall fl st z, crosses fl st z \/ ~ crosses fl st z).
  { intros fl st z. unfold crosses, watches_down, watches_up, watches_both.
    destruct (Z.eq_dec (Z.land fl 3) 1), (Z.eq_dec (Z.land fl 3) 2), (Z.eq_dec (Z.land fl 3) 3); try lia; destruct (Qclt_le_dec z 0), (Qclt_le_dec 0 z), (Z.eq_dec st 1), (Z.eq_dec st (-1)), (Z.eq_dec st 0), (Qc_eq_dec' z 0); try lia; try tauto; try (left; tauto); right;
      repeat match goal with H : (_ <= _)%Qc |- _ => apply Qcle_not_lt in H end; intuition. }
  destruct IH as [IH|(i & Hi & X)]; [|right; exists i; split; [lia|exact X]].
  destruct (D (ev_flag c n) (ev_state c n) (nth n z2 0%Qc)) as [X|X]; [right; exists n; split; [lia|exact X]|].
  left. intros i Hi. destruct (Nat.eq_dec i n) as [->|Q]; [exact X|apply IH; lia].
Qed.
Lemma ev_one_ok {P} (m : evrhs QcNum P) nz s w a : consistent m (fst w) nz -> benign_step m nz s w -> ev_one m s w = Ret a ->
  consistent m (fst (fst a)) nz /\ located s (snd a).
Proof.
  destruct w as [c p]. cbn [fst snd]. intros CO (TT & LX & HZ & HS) E. cbn [fst snd] in *. unfold ev_one, linear_events, ev_start, ev_end in E. cbn [fst snd] in E.
  destruct (start_again m nz p (s_x1 s) (s_t1 s) c CO) as (c1 & E1 & CO1 & T1 & Z1 & S1 & F1). rewrite E1 in E. cbn [obind fst snd] in E.
  apply obind_inv in E. destruct E as (((p' & c') & e) & E & Q). injection Q as <-. cbn [fst snd].
  assert (EZ : exists z2, zeroFunctions m p (s_t2 s) (s_x2 s) = Ret z2).
  { unfold c_end in E. destruct (proj1 CO1) as (_ & _ & _ & _ & _ & H1 & _). rewrite H1 in E. cbn [negb] in E. apply obind_inv in E. destruct E as (z2 & E & _). exists z2. exact E. }
  destruct EZ as (z2 & EZ). destruct (HZ z2 EZ) as (L2 & NT0).
  assert (NT : forall i, i < nz -> ~ touches_at c1 z2 i) by (intros i Hi; unfold touches_at, ev_state; rewrite S1; apply NT0; exact Hi).
  destruct (crosses_dec c1 z2 nz) as [NX|EX].
  - destruct (no_event m nz p (s_x1 s) (s_x2 s) (s_t2 s) c1 z2 CO1 EZ L2 NT NX) as (c2 & E2 & CO2 & _). rewrite E2 in E. injection E as <- <- <-.
    split; [exact CO2|]. unfold located. cbn. split; [apply Qclt_le_weak; exact TT|]. split; [discriminate|auto].
  - assert (TT1 : (c_t1 c1 < s_t2 s)%Qc) by (rewrite T1; exact TT).
    destruct (event_located m nz p (s_x1 s) (s_x2 s) (s_t2 s) c1 z2 CO1 EZ L2 LX TT1 NT EX) as (i & sg & FC & SG & B1 & B2 & THR & H).
    destruct (event_unique m nz p (s_x1 s) (s_x2 s) (s_t2 s) c1 z2 p' c' e CO1 EZ L2 LX NT EX E) as (i' & sg' & TR & IZ & TY & FC' & SG' & SW & _).
    destruct (switchPhase m p (one_transition nz i sg) (c_t1 c1 + (s_t2 s - c_t1 c1) * cross_at c1 z2 i)%Qc (vbetween (s_x1 s) (s_x2 s) (cross_at c1 z2 i))) as [(p1 & y1)| |] eqn:EW.
    + assert (RC : (exists zb, zeroFunctions m p1 (c_t1 c1 + (s_t2 s - c_t1 c1) * cross_at c1 z2 i)%Qc y1 = Ret zb) \/ c_rec c1 = false).
      { destruct (c_rec c1) eqn:R; [left|right; reflexivity].
        pose proof (pick_first m nz c1 z2 CO1 NT EX) as (k & FK & PK & _).
        assert (k = i) as ->.
        { destruct FK as (K1 & K2 & K3), FC as (I1 & I2 & I3). destruct (K3 i I1 I2) as (A & B). destruct (I3 k K1 K2) as (A' & B').
          destruct (lt_eq_lt_dec k i) as [[Q|Q]|Q]; [exfalso|exact Q|exfalso]; [apply (Qclt_not_le _ _ (B' Q) A)|apply (Qclt_not_le _ _ (B Q) A')]. }
        rewrite (end_event m nz p (s_x1 s) (s_x2 s) (s_t2 s) c1 z2 _ i (proj1 CO1) EZ L2 LX (flagged_nonempty m nz c1 z2 CO1 NT i (proj1 FC) (proj1 (proj2 FC))) PK (proj1 FC)) in E.
        assert (sgn (N:=QcNum) (nth i z2 0%Qc) = sg) as SE.
        { destruct (sgn_ok (nth i z2 0%Qc)) as [(A & ->)|[(A & ->)|(A & ->)]]; destruct SG as [(B & ->)|[(B & ->)|(B & ->)]]; auto; exfalso; clear -A B; change (nT QcNum) with Qc in *; qclra. }
        rewrite SE, EW in E. cbn [obind fst snd] in E. unfold after_switch in E. rewrite R in E. apply obind_inv in E. destruct E as (zb & E & _). exists zb. exact E. }
      destruct RC as [(zb & ZB)|NR].
      * destruct (HS _ _ _ _ _ _ EW ZB) as (LB & NS).
        destruct (H p1 y1 zb eq_refl ZB LB) as (c2 & E2 & S2 & T2 & ZZ & CC). rewrite E2 in E. injection E as <- <- <-. split.
        -- apply CC. intros j Hj R. unfold ev_flag in *. rewrite (proj1 (proj2 (proj2 (proj1 CO1)))) in *. apply NS; assumption.
        -- unfold located. cbn. rewrite T1 in B1, B2. rewrite T1. split; [exact B1|]. split; [intros; exact B2|discriminate].
      * pose proof (pick_first m nz c1 z2 CO1 NT EX) as (k & FK & PK & _).
        destruct (after_switch_ok m nz p1 y1 (c_t1 c1 + (s_t2 s - c_t1 c1) * cross_at c1 z2 i)%Qc c1 z2 (cross_at c1 z2 i) i (sgn (N:=QcNum) (nth i z2 0%Qc)) [] (proj1 CO1) L2) as (c2 & E2 & S2 & T2 & U).
        { intros Q. rewrite NR in Q. discriminate. }
        assert (k = i) as ->.
        { destruct FK as (K1 & K2 & K3), FC as (I1 & I2 & I3). destruct (K3 i I1 I2) as (A & B). destruct (I3 k K1 K2) as (A' & B').
          destruct (lt_eq_lt_dec k i) as [[Q|Q]|Q]; [exfalso|exact Q|exfalso]; [apply (Qclt_not_le _ _ (B' Q) A)|apply (Qclt_not_le _ _ (B Q) A')]. }
        assert (sgn (N:=QcNum) (nth i z2 0%Qc) = sg) as SE.
        { destruct (sgn_ok (nth i z2 0%Qc)) as [(A & ->)|[(A & ->)|(A & ->)]]; destruct SG as [(B & ->)|[(B & ->)|(B & ->)]]; auto; exfalso; clear -A B; change (nT QcNum) with Qc in *; qclra. }
        rewrite (end_event m nz p (s_x1 s) (s_x2 s) (s_t2 s) c1 z2 _ i (proj1 CO1) EZ L2 LX (flagged_nonempty m nz c1 z2 CO1 NT i (proj1 FC) (proj1 (proj2 FC))) PK (proj1 FC)) in E.
        rewrite SE, EW in E. cbn [obind fst snd] in E. rewrite SE in E2. rewrite E2 in E. injection E as <- <- <-. split.
        -- apply (consistent_after m nz c1 z2 CO1 NT c2 [] i FC S2); [exact U|].
           intros j Hj R. exfalso. destruct (proj1 CO1) as (_ & _ & CF & LF & _ & _ & CR & _). rewrite CR in NR.
           assert (existsb recomputed (zfFlags m) = true); [|congruence]. apply existsb_exists. exists (ev_flag c1 j). split; [|exact R]. unfold ev_flag. rewrite CF. apply nth_In. lia.
        -- unfold located. cbn. rewrite T1 in B1, B2. rewrite T1. split; [exact B1|]. split; [intros; exact B2|discriminate].
    + exfalso. rewrite THR in E by reflexivity. discriminate.
    + exfalso. pose proof (pick_first m nz c1 z2 CO1 NT EX) as (k & FK & PK & _).
      assert (k = i) as ->.
      { destruct FK as (K1 & K2 & K3), FC as (I1 & I2 & I3). destruct (K3 i I1 I2) as (A & B). destruct (I3 k K1 K2) as (A' & B').
        destruct (lt_eq_lt_dec k i) as [[Q|Q]|Q]; [exfalso|exact Q|exfalso]; [apply (Qclt_not_le _ _ (B' Q) A)|apply (Qclt_not_le _ _ (B Q) A')]. }
      rewrite (end_event m nz p (s_x1 s) (s_x2 s) (s_t2 s) c1 z2 _ i (proj1 CO1) EZ L2 LX (flagged_nonempty m nz c1 z2 CO1 NT i (proj1 FC) (proj1 (proj2 FC))) PK (proj1 FC)) in E.
      assert (sgn (N:=QcNum) (nth i z2 0%Qc) = sg) as SE.
      { destruct (sgn_ok (nth i z2 0%Qc)) as [(A & ->)|[(A & ->)|(A & ->)]]; destruct SG as [(B & ->)|[(B & ->)|(B & ->)]]; auto; exfalso; clear -A B; change (nT QcNum) with Qc in *; qclra. }
      rewrite SE, EW in E. discriminate.
Qed.
Theorem run_located {P} (m : evrhs QcNum P) nz l : forall w w' es, consistent m (fst w) nz -> benign_run m nz l w -> ev_run m l w = Ret (w', es) ->
  consistent m (fst w') nz /\ Forall2 located l es.
Proof.
  induction l as [|s l IH]; intros w w' es CO B E; cbn in E.
  - injection E as <- <-. split; [exact CO|constructor].
  - apply obind_inv in E. destruct E as (a & E1 & E). apply obind_inv in E. destruct E as (b & E2 & E). injection E as <- <-.
    destruct B as (B1 & B2). destruct (ev_one_ok m nz s w a CO B1 E1) as (CO1 & LO).
    destruct b as [w2 es2]. destruct (IH (fst a) w2 es2 CO1 (B2 a E1) E2) as (CO2 & F). split; [exact CO2|constructor; assumption].
Qed.

Lemma repeated_one {P} (m : evrhs QcNum P) s w a : at_zero m (fst w) -> falling_step m s w -> ev_one m s w = Ret a ->
  at_zero m (fst (fst a)) /\ snd (fst a) = snd w /\ ev_trunc (snd a) = true /\ ev_t (snd a) = s_t1 s.
Proof.
  destruct w as [c p]. cbn [fst snd]. intros (CO & WD & NR & Z0) (LX & (z & HZ & NEG) & HS) E. cbn [fst snd] in *. unfold ev_one, linear_events, ev_start, ev_end in E. cbn [fst snd] in E.
  destruct (start_again m 1 p (s_x1 s) (s_t1 s) c CO) as (c1 & E1 & CO1 & T1 & Z1 & S1 & F1). rewrite E1 in E. cbn [obind fst snd] in E.
  apply obind_inv in E. destruct E as (((p' & c') & e) & E & Q). injection Q as <-. cbn [fst snd].
  assert (WD1 : watches_down (ev_flag c1 0)) by (unfold ev_flag; rewrite F1; exact WD).
  assert (Z01 : ev_z1 c1 0 = 0%Qc) by (unfold ev_z1; rewrite Z1; exact Z0).
  assert (NT : forall i, i < 1 -> ~ touches_at c1 [z] i).
  { intros i Hi (Q & _). replace i with 0 in Q by lia. cbn in Q. rewrite Q in NEG. apply (Qclt_not_eq _ _ NEG). reflexivity. }
  assert (EX : exists i, i < 1 /\ crosses_at c1 [z] i) by (exists 0; split; [lia|left; split; [exact WD1|exact NEG]]).
  destruct (pick_first m 1 c1 [z] CO1 NT EX) as (i & FC & PK & _). assert (i = 0) as -> by (pose proof (proj1 FC); lia).
  rewrite (end_event m 1 p (s_x1 s) (s_x2 s) (s_t2 s) c1 [z] _ 0 (proj1 CO1) HZ eq_refl LX (flagged_nonempty m 1 c1 [z] CO1 NT 0 (proj1 FC) (proj1 (proj2 FC))) PK (proj1 FC)) in E.
  apply obind_inv in E. destruct E as ((p1 & y1) & SW & E). cbn [fst snd] in E. pose proof (HS _ _ _ _ _ SW) as ->.
  assert (RF : c_rec c1 = false).
  { destruct (proj1 CO1) as (_ & _ & CF & LF & _ & _ & CR & _). rewrite CR. unfold ev_flag in NR. rewrite <- F1, CF in NR. destruct (zfFlags m) as [|f [|? ?]]; try discriminate LF. cbn in *. rewrite NR. reflexivity. }
  destruct (after_switch_ok m 1 p y1 (c_t1 c1 + (s_t2 s - c_t1 c1) * cross_at c1 [z] 0)%Qc c1 [z] (cross_at c1 [z] 0) 0 (sgn (N:=QcNum) (nth 0 [z] 0%Qc)) [] (proj1 CO1) eq_refl) as (c2 & E2 & S2 & T2 & U).
  { intros Q. rewrite RF in Q. discriminate. }
  rewrite E2 in E. injection E as <- <- <-. cbn [ev_trunc ev_t].
  assert (TH : cross_at c1 [z] 0 = 0%Qc) by (unfold cross_at; rewrite Z01; unfold cross_time, Qcdiv; ring).
  assert (FE : ev_flag c2 0 = ev_flag c 0).
  { unfold ev_flag. rewrite <- F1. destruct S2 as (_ & _ & F' & _). destruct (proj1 CO1) as (_ & _ & F & _). rewrite F', F. reflexivity. }
  assert (NR1 : recomputed (nth 0 (c_flags c1) 0%Z) = false) by (rewrite F1; exact NR).
  split; [|split; [reflexivity|split; [reflexivity|]]].
  - split; [|split; [rewrite FE; exact WD|split; [rewrite FE; exact NR|]]].
    + apply (consistent_after m 1 c1 [z] CO1 NT c2 [] 0 FC S2 U). intros j Hj R. replace j with 0 in R by lia. unfold ev_flag in R. rewrite NR1 in R. discriminate.
    + destruct (U 0 (le_n 1)) as (U1 & _). rewrite U1. unfold new_z. rewrite NR1, TH. change (nth 0 (c_zf1 c1) 0%Qc) with (ev_z1 c1 0). rewrite Z01. unfold between. cbn. ring.
  - change (nT QcNum) with Qc in *. rewrite TH, T1. ring.
Qed.
Theorem repeated_event {P} (m : evrhs QcNum P) l : forall w w' es, at_zero m (fst w) -> Forall (fun s => falling_step m s w) l -> ev_run m l w = Ret (w', es) ->
  Forall2 (fun s (e : evres QcNum) => ev_trunc e = true /\ ev_t e = s_t1 s) l es.
Proof.
  induction l as [|s l IH]; intros w w' es AZ B E; cbn in E.
  - injection E as <- <-. constructor.
  - apply obind_inv in E. destruct E as (a & E1 & E). apply obind_inv in E. destruct E as (b & E2 & E). injection E as <- <-.
    inversion B as [|? ? B1 B2]; subst. destruct (repeated_one m s w a AZ B1 E1) as (AZ1 & PE & TR & TT).
    constructor; [auto|]. destruct b as [w2 es2]. apply (IH (fst a) w2 es2 AZ1); [|exact E2]. eapply Forall_impl; [|exact B2].
    intros s0. unfold falling_step. rewrite PE. auto.
Qed.

(** A reset makes the next step start afresh, whatever the controller went through. *)
Theorem start_reset {P} (m : evrhs QcNum P) nz p x1 t1 c z : 0 < nz -> zfCount m = nz -> length (zfFlags m) = nz ->
  zeroFunctions m p t1 x1 = Ret z -> length z = nz ->
  exists c', c_start m p x1 t1 (c_reset c) = Ret c' /\ sized m c' nz /\ c_zf1 c' = z /\ c_t1 c' = t1 /\
    (consistent m c' nz <-> forall i, i < nz -> near_side (nth i (zfFlags m) 0%Z) (nth i z 0%Qc)).
Proof. intros. apply start_fresh; auto. Qed.
