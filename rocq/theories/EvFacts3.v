(** EvFacts3.v - the end of a step with and without an event; runs. *)
From Coq Require Import List Arith Bool ZArith QArith Qcanon Lia.
From Verif Require Import Base BaseFacts VecModel VOps RkModel NewtFacts RkFacts2 RkFacts4 EvModel EvSpec EvFacts EvFacts2.
Import ListNotations.
Local Open Scope nat_scope.

Lemma vbetween_ok (x1 x2 : list Qc) th : length x2 <= length x1 ->
  ladd (N:=QcNum) (lscale (N:=QcNum) x2 th) (lscale (N:=QcNum) x1 (nsub QcNum (n1 QcNum) th)) = Ret (vbetween x1 x2 th).
Proof.
  intros H. assert (LL : @length (nT QcNum) (lscale (N:=QcNum) x2 th) = @length Qc x2) by apply (lscale_length (N:=QcNum)).
  unfold ladd. rewrite lzip_ok by (rewrite !lscale_length; exact H). f_equal. unfold vbetween. rewrite LL.
  apply map_ext_in. intros i Hi. apply in_seq in Hi. unfold lscale, between.
  change (n0 QcNum) with 0%Qc. change (nadd QcNum) with Qcplus. change (nmul QcNum) with Qcmult. change (nsub QcNum) with Qcminus. change (n1 QcNum) with 1%Qc.
  change (nT QcNum) with Qc.
  assert (M : forall (l : list Qc) k, nth i (map (fun x => (x * k)%Qc) l) 0%Qc = (nth i l 0 * k)%Qc).
  { intros l k. transitivity (nth i (map (fun x => (x * k)%Qc) l) ((fun x => (x * k)%Qc) 0%Qc)); [f_equal; ring|]. exact (map_nth (fun x => (x * k)%Qc) l 0%Qc i). }
  rewrite !M. ring.
Qed.
Lemma one_transition_ok n i s : i < n -> wr (repeat 0%Z n) i s = Ret (one_transition n i s).
Proof.
  intros H. rewrite wr_ok by (rewrite repeat_length; exact H). f_equal. apply (list_ext 0%Z).
  - unfold one_transition. rewrite upd_length, repeat_length, map_length, seq_length. reflexivity.
  - intros j Hj. rewrite upd_length, repeat_length in Hj. unfold one_transition. rewrite nth_map_seq by exact Hj. rewrite nth_upd, repeat_length.
    rewrite (proj2 (Nat.ltb_lt i n) H). destruct (j =? i); [reflexivity|]. rewrite nth_repeat. reflexivity.
Qed.
Lemma flagged_in c z2 nz i : In i (flagged c z2 nz) <-> i < nz /\ xz (N:=QcNum) (ev_flag c i) (ev_state c i) (nth i z2 0%Qc) = true.
Proof. unfold flagged. rewrite filter_In, in_seq. intuition lia. Qed.
Lemma flagged_before c z2 nz l1 i l2 : flagged c z2 nz = l1 ++ i :: l2 -> forall j, In j (flagged c z2 nz) -> j < i -> In j l1.
Proof.
  intros E j Hj L. unfold flagged in *. destruct (filter_split _ _ _ _ _ E) as (a & b & ES & <- & <-).
  apply filter_In. apply filter_In in Hj. destruct Hj as (Hj & X). split; [|exact X].
  assert (LA : length a = i).
  { apply (f_equal (fun l => nth (length a) l 0)) in ES. rewrite app_nth2 in ES by lia. rewrite Nat.sub_diag in ES. cbn in ES.
    destruct (Nat.lt_ge_cases (length a) nz) as [Q|Q]; [rewrite seq_nth in ES by exact Q; lia|].
    apply (f_equal (@length nat)) in E. exfalso. revert ES. rewrite nth_overflow by (rewrite seq_length; exact Q). intros <-. lia. }
  rewrite ES in Hj. apply in_app_or in Hj. destruct Hj as [Hj|Hj]; [exact Hj|]. exfalso.
  apply (In_nth _ _ 0) in Hj. destruct Hj as (k & Hk & Ek).
  assert (nth (length a + k) (seq 0 nz) 0 = j) as Q by (rewrite ES, app_nth2 by lia; replace (length a + k - length a) with k by lia; exact Ek).
  rewrite seq_nth in Q; [lia|]. rewrite <- (seq_length nz 0), ES, app_length. lia.
Qed.

Section End.
Context {P : Type} (m : evrhs QcNum P) (nz : nat).
Definition after_switch (p' : P) (x' : list Qc) (t : Qc) (c : ctl QcNum) (z2 : list Qc) (th : Qc) (it : nat) (tt : Z) : Outcome (P * ctl QcNum * evres QcNum) :=
  zb <- (if c_rec c then zeroFunctions m p' t x' else Ret []) ;;
  r <- c_update (N:=QcNum) (c_rec c) (c_zf1 c) z2 zb (c_flags c) th it tt (c_state c) ;;
  Ret (p', mkCtl (c_clean c) (c_haveZf c) (c_rec c) (fst r) z2 (c_flags c) (snd r) (c_t1 c), mkEvres (N:=QcNum) x' t true (Some it) tt).
Lemma end_none p x1 x2 t2 c z2 : sized m c nz -> zeroFunctions m p t2 x2 = Ret z2 -> length z2 = nz -> flagged c z2 nz = [] ->
  c_end m p x1 x2 t2 c = Ret (p, mkCtl (c_clean c) (c_haveZf c) (c_rec c) z2 (c_zf1 c) (c_flags c) (c_state c) (c_t1 c), mkEvres x2 t2 false None 0%Z).
Proof.
  intros (NP & CN & CF & LF & CL & HZ & CR & L1 & LS) Z L2 F. unfold c_end. rewrite HZ. cbn [negb]. rewrite Z. cbn [obind].
  rewrite (changed_ok c z2 nz) by (auto; congruence). rewrite F, ?HZ. reflexivity.
Qed.
Lemma end_event p x1 x2 t2 c z2 th it : sized m c nz -> zeroFunctions m p t2 x2 = Ret z2 -> length z2 = nz -> length x2 <= length x1 ->
  flagged c z2 nz <> [] -> fold_left (pick (c_zf1 c) z2) (flagged c z2 nz) (1%Qc, None) = (th, Some it) -> it < nz ->
  c_end m p x1 x2 t2 c =
   (px <- switchPhase m p (one_transition nz it (sgn (N:=QcNum) (nth it z2 0%Qc))) (c_t1 c + (t2 - c_t1 c) * th)%Qc (vbetween x1 x2 th) ;;
    after_switch (fst px) (snd px) (c_t1 c + (t2 - c_t1 c) * th)%Qc c z2 th it (sgn (N:=QcNum) (nth it z2 0%Qc))).
Proof.
  intros (NP & CN & CF & LF & CL & HZ & CR & L1 & LS) Z L2 LX F PK IT. unfold c_end. rewrite HZ. cbn [negb]. rewrite Z. cbn [obind].
  rewrite (changed_ok c z2 nz) by (auto; congruence). cbn [obind].
  destruct (flagged c z2 nz) as [|i0 l0] eqn:EF; [contradiction|].
  assert (EA : earliest (N:=QcNum) (c_zf1 c) z2 (i0 :: l0) = Ret (th, Some it)).
  { rewrite <- PK. apply earliest_fold. intros i Hi. rewrite <- EF in Hi. apply flagged_in in Hi. change (nT QcNum) with Qc in *. lia. }
  rewrite EA. cbn [obind fst snd]. rewrite (vbetween_ok x1 x2 th LX). cbn [obind]. change (nT QcNum) with Qc in *.
  rewrite (rdat_ok (A:=Qc) z2 it 0%Qc) by lia. cbn [obind]. rewrite CN, (one_transition_ok nz it _ IT). cbn [obind]. unfold after_switch. rewrite HZ.
  change (nadd QcNum) with Qcplus. change (nmul QcNum) with Qcmult. change (nsub QcNum) with Qcminus.
  match goal with |- obind ?a _ = obind ?a _ => destruct a as [[p' x']| |]; reflexivity end.
Qed.
Lemma end_lost p x1 x2 t2 c z2 th : sized m c nz -> zeroFunctions m p t2 x2 = Ret z2 -> length z2 = nz -> length x2 <= length x1 ->
  flagged c z2 nz <> [] -> fold_left (pick (c_zf1 c) z2) (flagged c z2 nz) (1%Qc, None) = (th, None) -> c_end m p x1 x2 t2 c = Throw.
Proof.
  intros (NP & CN & CF & LF & CL & HZ & CR & L1 & LS) Z L2 LX F PK. unfold c_end. rewrite HZ. cbn [negb]. rewrite Z. cbn [obind].
  rewrite (changed_ok c z2 nz) by (auto; congruence). cbn [obind].
  destruct (flagged c z2 nz) as [|i0 l0] eqn:EF; [contradiction|].
  assert (EA : earliest (N:=QcNum) (c_zf1 c) z2 (i0 :: l0) = Ret (th, None)).
  { rewrite <- PK. apply earliest_fold. intros i Hi. rewrite <- EF in Hi. apply flagged_in in Hi. change (nT QcNum) with Qc in *. lia. }
  rewrite EA. cbn [obind fst snd]. rewrite (vbetween_ok x1 x2 th LX). reflexivity.
Qed.
Lemma after_switch_ok p' x' t c z2 th it tt zb : sized m c nz -> length z2 = nz ->
  (c_rec c = true -> zeroFunctions m p' t x' = Ret zb /\ length zb = nz) ->
  exists c', after_switch p' x' t c z2 th it tt = Ret (p', c', mkEvres (N:=QcNum) x' t true (Some it) tt) /\ sized m c' nz /\ c_t1 c' = c_t1 c /\
    forall j, j < nz -> ev_z1 c' j = new_z (c_zf1 c) z2 zb (c_flags c) th j /\ ev_state c' j = new_state (c_zf1 c) z2 zb (c_flags c) (c_state c) th it tt j.
Proof.
  intros (NP & CN & CF & LF & CL & HZ & CR & L1 & LS) L2 HB. unfold after_switch.
  assert (EX : forall j, j < nz -> recomputed (nth j (c_flags c) 0%Z) = true -> c_rec c = true).
  { intros j Hj R. rewrite CR. apply existsb_exists. exists (nth j (c_flags c) 0%Z). split; [|exact R]. rewrite CF. apply nth_In. lia. }
  set (zb' := if c_rec c then zb else []).
  assert (EZ : (if c_rec c then zeroFunctions m p' t x' else Ret []) = Ret zb') by (unfold zb'; destruct (c_rec c); [apply HB; reflexivity|reflexivity]).
  rewrite EZ. cbn [obind].
  destruct (update_ok (c_rec c) (c_zf1 c) z2 zb' (c_flags c) th it tt (c_state c) nz) as (z' & st' & E & A & B & C); auto.
  - congruence.
  - intros (j & Hj & R). unfold zb'. rewrite (EX j Hj R). apply HB, (EX j Hj R).
  - rewrite E. cbn [obind fst snd]. eexists. split; [reflexivity|]. split; [unfold sized; cbn; repeat split; assumption|]. split; [reflexivity|].
    intros j Hj. unfold ev_z1, ev_state. cbn [c_zf1 c_state]. destruct (C j Hj) as (C1 & C2). change (nT QcNum) with Qc in *. rewrite C1, C2. unfold new_z, new_state, zb'.
    destruct (recomputed (nth j (c_flags c) 0%Z)) eqn:R; [rewrite (EX j Hj R)|]; auto.
Qed.
End End.

Lemma near_agrees fl z : near_side fl z -> agrees fl (sgnf (N:=QcNum) z fl) z.
Proof.
  unfold near_side, agrees, sgnf, watches_down, watches_up, watches_both. change (nleb QcNum) with Qcleb. change (n0 QcNum) with 0%Qc.
  intros [(E & A)|[(E & A)|E]]; rewrite E.
  - left. repeat split; auto. destruct (Qcleb z 0); auto.
  - right; left. repeat split; auto. destruct (Qcleb 0 z); auto.
  - right; right. split; [reflexivity|]. destruct (sgn_ok z) as [(Q & ->)|[(Q & ->)|(Q & ->)]].
    + right; left. split; [reflexivity|apply Qclt_le_weak; exact Q].
    + left. split; [reflexivity|apply Qclt_le_weak; exact Q].
    + right; right. auto.
Qed.
Lemma agrees_near fl st z : agrees fl st z -> near_side fl z.
Proof. unfold near_side, agrees. intros [(E & A & _)|[(E & A & _)|(E & _)]]; auto. Qed.

Section Main.
Context {P : Type} (m : evrhs QcNum P) (nz : nat).
Context (p : P) (x1 x2 : list Qc) (t2 : Qc) (c : ctl QcNum) (z2 : list Qc).
Context (CO : consistent m c nz) (Z : zeroFunctions m p t2 x2 = Ret z2) (L2 : length z2 = nz) (LX : length x2 <= length x1).
Context (NT : forall i, i < nz -> ~ touches_at c z2 i).
Lemma flagged_crosses i : In i (flagged c z2 nz) <-> i < nz /\ crosses_at c z2 i.
Proof.
  rewrite flagged_in. split; intros (H & X); (split; [exact H|]); [apply (xz_iff _ _ (ev_z1 c i))|apply (xz_iff _ _ (ev_z1 c i))]; auto; try (apply CO; exact H); apply NT; exact H.
Qed.
Lemma pick_first : (exists i, i < nz /\ crosses_at c z2 i) ->
  exists i, first_crossing c z2 nz i /\ fold_left (pick (c_zf1 c) z2) (flagged c z2 nz) (1%Qc, None) = (cross_at c z2 i, Some i) /\
    (0 <= cross_at c z2 i)%Qc /\ (cross_at c z2 i < 1)%Qc.
Proof.
  intros (i0 & H0 & X0). pose proof (pick_inv (c_zf1 c) z2 (flagged c z2 nz)) as PI. cbv zeta in PI.
  destruct (fold_left (pick (c_zf1 c) z2) (flagged c z2 nz) (1%Qc, None)) as [th [i|]].
  - destruct PI as (-> & L1 & l1 & l2 & E & A & B). exists i.
    assert (Hi : i < nz /\ crosses_at c z2 i) by (apply flagged_crosses; rewrite E; apply in_or_app; right; left; reflexivity).
    split; [split; [apply Hi|split; [apply Hi|]]|].
    + intros j Hj X. assert (IJ : In j (flagged c z2 nz)) by (apply flagged_crosses; auto). split.
      * rewrite E in IJ. apply in_app_or in IJ. destruct IJ as [IJ|[<-|IJ]]; [apply Qclt_le_weak, A; exact IJ|apply Qcle_refl|apply B; exact IJ].
      * intros LT. apply A. eapply flagged_before; eauto.
    + split; [reflexivity|]. apply (cross_range (ev_flag c i) (ev_state c i)); [apply CO, Hi|apply Hi].
  - destruct PI as (_ & A). exfalso. pose proof (A i0 (proj2 (flagged_crosses i0) (conj H0 X0))) as G.
    destruct (cross_range _ _ _ _ (proj2 CO i0 H0) X0) as (_ & L). apply (Qclt_not_le _ _ L G).
Qed.
Lemma flagged_nonempty i : i < nz -> crosses_at c z2 i -> flagged c z2 nz <> [].
Proof. intros H X E. apply (in_nil (a:=i)). rewrite <- E. apply flagged_crosses. auto. Qed.
Lemma consistent_after c' zb it : first_crossing c z2 nz it -> sized m c' nz ->
  let th := cross_at c z2 it in
  (forall j, j < nz -> ev_z1 c' j = new_z (c_zf1 c) z2 zb (c_flags c) th j /\
     ev_state c' j = new_state (c_zf1 c) z2 zb (c_flags c) (c_state c) th it (sgn (N:=QcNum) (nth it z2 0%Qc)) j) ->
  (forall j, j < nz -> recomputed (ev_flag c j) = true -> near_side (ev_flag c j) (nth j zb 0%Qc)) -> consistent m c' nz.
Proof.
  intros (IT & X & MIN) S th U R. split; [exact S|]. intros j Hj. destruct (U j Hj) as (U1 & U2).
  assert (FE : ev_flag c' j = ev_flag c j).
  { unfold ev_flag. destruct S as (_ & _ & F' & _). destruct CO as ((_ & _ & F & _) & _). rewrite F', F. reflexivity. }
  rewrite FE, U1, U2. unfold new_z, new_state. fold (ev_flag c j). pose proof (proj2 CO j Hj) as AG. fold (ev_state c j).
  change (nth j (c_zf1 c) 0%Qc) with (ev_z1 c j).
  destruct (cross_range _ _ _ _ (proj2 CO it IT) X) as (T0 & T1). fold (cross_at c z2 it) in T0, T1. fold th in T0, T1.
  destruct (recomputed (ev_flag c j)) eqn:ER; [apply near_agrees, R; assumption|].
  destruct (Nat.eqb_spec j it) as [->|Q].
  - assert (ZR : between (ev_z1 c it) (nth it z2 0%Qc) th = 0%Qc) by (apply between_zero; exact (crosses_neq _ _ _ _ AG X)).
    rewrite ZR.
    destruct (Z.eqb_spec (Z.land (ev_flag c it) 3) 3) as [B|B].
    + right; right. split; [exact B|]. destruct (sgn_ok (nth it z2 0%Qc)) as [(Q & ->)|[(Q & ->)|(Q & _)]].
      * right; left. split; [reflexivity|apply Qcle_refl].
      * left. split; [reflexivity|apply Qcle_refl].
      * exfalso. clear -X Q. unfold crosses_at, crosses in X. rewrite Q in X.
        destruct X as [(_ & X)|[(_ & X)|(_ & [(_ & X)|[(_ & X)|(_ & X)]])]]; try (apply (Qclt_not_eq _ _ X); reflexivity). apply X; reflexivity.
    + apply near_agrees. pose proof (agrees_near _ _ _ AG) as N. unfold near_side in *. destruct N as [(E & _)|[(E & _)|E]]; [left|right; left|contradiction]; split; auto; apply Qcle_refl.
  - apply between_agrees; auto; [apply NT; exact Hj|]. intros XJ. apply MIN; assumption.
Qed.
End Main.

Lemma time_in (t1 t2 th : Qc) : (t1 < t2)%Qc -> (0 <= th)%Qc -> (th < 1)%Qc -> (t1 <= t1 + (t2 - t1) * th)%Qc /\ (t1 + (t2 - t1) * th < t2)%Qc.
Proof. intros. split; qcnra. Qed.

Theorem event_located {P} (m : evrhs QcNum P) nz p x1 x2 t2 c z2 : consistent m c nz -> zeroFunctions m p t2 x2 = Ret z2 -> length z2 = nz -> length x2 <= length x1 ->
  (c_t1 c < t2)%Qc -> (forall i, i < nz -> ~ touches_at c z2 i) -> (exists i, i < nz /\ crosses_at c z2 i) ->
  exists i s, first_crossing c z2 nz i /\ qsign (nth i z2 0%Qc) s /\
    let th := cross_at c z2 i in
    let t := (c_t1 c + (t2 - c_t1 c) * th)%Qc in
    (c_t1 c <= t)%Qc /\ (t < t2)%Qc /\
    (switchPhase m p (one_transition nz i s) t (vbetween x1 x2 th) = Throw -> c_end m p x1 x2 t2 c = Throw) /\
    forall p' x' zb, switchPhase m p (one_transition nz i s) t (vbetween x1 x2 th) = Ret (p', x') ->
      zeroFunctions m p' t x' = Ret zb -> length zb = nz ->
      exists c', c_end m p x1 x2 t2 c = Ret (p', c', mkEvres x' t true (Some i) s) /\ sized m c' nz /\ c_t1 c' = c_t1 c /\
        (forall j, j < nz -> ev_z1 c' j = if recomputed (ev_flag c j) then nth j zb 0%Qc else between (ev_z1 c j) (nth j z2 0%Qc) th) /\
        ((forall j, j < nz -> recomputed (ev_flag c j) = true -> near_side (ev_flag c j) (nth j zb 0%Qc)) -> consistent m c' nz).
Proof.
  intros CO Z L2 LX T NT EX. destruct (pick_first m nz c z2 CO NT EX) as (i & FC & PK & T0 & T1).
  exists i, (sgn (N:=QcNum) (nth i z2 0%Qc)). split; [exact FC|]. split; [apply sgn_ok|]. cbv zeta.
  destruct (time_in (c_t1 c) t2 (cross_at c z2 i) T T0 T1) as (A & B). split; [exact A|]. split; [exact B|].
  pose proof (end_event m nz p x1 x2 t2 c z2 _ i (proj1 CO) Z L2 LX (flagged_nonempty m nz c z2 CO NT i (proj1 FC) (proj1 (proj2 FC))) PK (proj1 FC)) as EE.
  split; [intros TH; rewrite EE, TH; reflexivity|].
  intros p' x' zb SW ZB LB. rewrite EE, SW. cbn [obind fst snd].
  destruct (after_switch_ok m nz p' x' (c_t1 c + (t2 - c_t1 c) * cross_at c z2 i)%Qc c z2 (cross_at c z2 i) i (sgn (N:=QcNum) (nth i z2 0%Qc)) zb (proj1 CO) L2) as (c' & E & S & TT & U).
  { intros _. split; assumption. }
  exists c'. split; [exact E|]. split; [exact S|]. split; [exact TT|]. split.
  - intros j Hj. exact (proj1 (U j Hj)).
  - intros R. exact (consistent_after m nz c z2 CO NT c' zb i FC S U R).
Qed.

Theorem no_event {P} (m : evrhs QcNum P) nz p x1 x2 t2 c z2 : consistent m c nz -> zeroFunctions m p t2 x2 = Ret z2 -> length z2 = nz ->
  (forall i, i < nz -> ~ touches_at c z2 i) -> (forall i, i < nz -> ~ crosses_at c z2 i) ->
  exists c', c_end m p x1 x2 t2 c = Ret (p, c', mkEvres x2 t2 false None 0%Z) /\ consistent m c' nz /\ c_zf1 c' = z2 /\ c_t1 c' = c_t1 c.
Proof.
  intros CO Z L2 NT NX.
  assert (FE : flagged c z2 nz = []).
  { destruct (flagged c z2 nz) as [|i l] eqn:E; [reflexivity|exfalso]. assert (H : In i (flagged c z2 nz)) by (rewrite E; left; reflexivity).
    apply (flagged_crosses m nz c z2 CO NT) in H. apply (NX i); apply H. }
  eexists. split; [apply (end_none m nz); [apply CO|exact Z|exact L2|exact FE]|]. split; [|split; reflexivity].
  destruct CO as ((NP & CN & CF & LF & CL & HZ & CR & L1 & LS) & AG). split; [unfold sized; cbn; repeat split; assumption|].
  intros i Hi. unfold ev_flag, ev_state, ev_z1. cbn [c_flags c_state c_zf1]. apply (xz_not _ _ (ev_z1 c i)); [apply AG; exact Hi|].
  destruct (xz (N:=QcNum) (nth i (c_flags c) 0%Z) (nth i (c_state c) 0%Z) (nth i z2 0%Qc)) eqn:X; [exfalso|reflexivity].
  apply (in_nil (a:=i)). rewrite <- FE. apply flagged_in. auto.
Qed.

Theorem event_unique {P} (m : evrhs QcNum P) nz p x1 x2 t2 c z2 p' c' e : consistent m c nz -> zeroFunctions m p t2 x2 = Ret z2 -> length z2 = nz -> length x2 <= length x1 ->
  (forall i, i < nz -> ~ touches_at c z2 i) -> (exists i, i < nz /\ crosses_at c z2 i) ->
  c_end m p x1 x2 t2 c = Ret (p', c', e) ->
  exists i s, ev_trunc e = true /\ ev_izf e = Some i /\ ev_type e = s /\ first_crossing c z2 nz i /\ qsign (nth i z2 0%Qc) s /\
    switchPhase m p (one_transition nz i s) (ev_t e) (vbetween x1 x2 (cross_at c z2 i)) = Ret (p', ev_x e) /\
    between (ev_z1 c i) (nth i z2 0%Qc) (cross_at c z2 i) = 0%Qc /\
    forall j, j < nz -> ~ crosses (ev_flag c j) (ev_state c j) (between (ev_z1 c j) (nth j z2 0%Qc) (cross_at c z2 i)).
Proof.
  intros CO Z L2 LX NT EX E. destruct (pick_first m nz c z2 CO NT EX) as (i & FC & PK & T0 & T1).
  pose proof (end_event m nz p x1 x2 t2 c z2 _ i (proj1 CO) Z L2 LX (flagged_nonempty m nz c z2 CO NT i (proj1 FC) (proj1 (proj2 FC))) PK (proj1 FC)) as EE.
  rewrite EE in E. apply obind_inv in E. destruct E as ((p1 & y1) & SW & E). cbn [fst snd] in E. unfold after_switch in E.
  apply obind_inv in E. destruct E as (zb & _ & E). apply obind_inv in E. destruct E as (r & _ & E). injection E as <- _ <-.
  exists i, (sgn (N:=QcNum) (nth i z2 0%Qc)). cbn [ev_trunc ev_izf ev_type ev_t ev_x].
  split; [reflexivity|]. split; [reflexivity|]. split; [reflexivity|]. split; [exact FC|]. split; [apply sgn_ok|]. split; [exact SW|].
  destruct FC as (IT & X & MIN). split.
  - apply between_zero. exact (crosses_neq _ _ _ _ (proj2 CO i IT) X).
  - intros j Hj. apply agrees_not_crosses; auto; [apply CO; exact Hj|apply NT; exact Hj|]. intros XJ. apply MIN; assumption.
Qed.

Theorem zero_end_fails {P} (m : evrhs QcNum P) nz p x1 x2 t2 c z2 : consistent m c nz -> zeroFunctions m p t2 x2 = Ret z2 -> length z2 = nz -> length x2 <= length x1 ->
  (forall i, i < nz -> ~ crosses_at c z2 i) -> (forall i, i < nz -> touches_at c z2 i -> ev_z1 c i <> 0%Qc) ->
  (exists i, i < nz /\ touches_at c z2 i) -> c_end m p x1 x2 t2 c = Throw.
Proof.
  intros CO Z L2 LX NX NZ (i0 & H0 & T0).
  assert (FT : forall i, In i (flagged c z2 nz) -> i < nz /\ touches_at c z2 i).
  { intros i Hi. apply flagged_in in Hi. destruct Hi as (Hi & X). split; [exact Hi|].
    destruct (xz_flagged _ _ _ _ (proj2 CO i Hi) X) as [|C]; [assumption|]. exfalso. exact (NX i Hi C). }
  assert (F0 : In i0 (flagged c z2 nz)).
  { apply flagged_in. split; [exact H0|]. destruct T0 as (E & S). rewrite E. pose proof (proj2 CO i0 H0) as A. clear -A S. unfold agrees, xz, watches_down, watches_up, watches_both in *.
    destruct A as [(E & _ & Q)|[(E & _ & Q)|(E & Q)]]; rewrite E.
    - destruct Q as [Q|Q]; [contradiction|rewrite Q; reflexivity].
    - destruct Q as [Q|Q]; [contradiction|rewrite Q; reflexivity].
    - destruct Q as [(Q & _)|[(Q & _)|(Q & _)]]; [rewrite Q; reflexivity|rewrite Q; reflexivity|contradiction]. }
  pose proof (pick_inv (c_zf1 c) z2 (flagged c z2 nz)) as PI. cbv zeta in PI.
  assert (ONE : forall i, In i (flagged c z2 nz) -> cross_time (nth i (c_zf1 c) 0%Qc) (nth i z2 0%Qc) = 1%Qc).
  { intros i Hi. destruct (FT i Hi) as (H & T). pose proof (NZ i H T) as N1. unfold ev_z1 in N1. destruct T as (T & _). unfold cross_time. change (nT QcNum) with Qc in *. rewrite T. field. intros Q. apply N1. clear -Q. qclra. }
  destruct (fold_left (pick (c_zf1 c) z2) (flagged c z2 nz) (1%Qc, None)) as [th [i|]] eqn:PK.
  - exfalso. destruct PI as (-> & L1 & l1 & l2 & E & _). rewrite ONE in L1 by (rewrite E; apply in_or_app; right; left; reflexivity). apply (Qclt_not_eq _ _ L1). reflexivity.
  - eapply (end_lost m nz); eauto; [apply CO|]. intros E. rewrite E in F0. contradiction.
Qed.

Lemma neg_prod (d b : Qc) : (0 < d)%Qc -> (b < 0)%Qc -> (d * b < 0)%Qc.
Proof. intros. qcnra. Qed.
Theorem far_side_backwards {P} (m : evrhs QcNum P) nz p x1 x2 t2 c z2 p' c' e j : sized m c nz -> zeroFunctions m p t2 x2 = Ret z2 -> length z2 = nz -> length x2 <= length x1 ->
  (c_t1 c < t2)%Qc -> j < nz -> ev_state c j = 0%Z ->
  (watches_down (ev_flag c j) /\ (ev_z1 c j < 0)%Qc /\ (nth j z2 0 < ev_z1 c j)%Qc) \/ (watches_up (ev_flag c j) /\ (0 < ev_z1 c j)%Qc /\ (ev_z1 c j < nth j z2 0)%Qc) ->
  c_end m p x1 x2 t2 c = Ret (p', c', e) -> (ev_t e < c_t1 c)%Qc.
Proof.
  intros S Z L2 LX T Hj ST F E.
  assert (TJ : (cross_time (nth j (c_zf1 c) 0%Qc) (nth j z2 0%Qc) < 0)%Qc).
  { assert (G : forall a b, (a < 0)%Qc -> (b < a)%Qc -> (cross_time a b < 0)%Qc).
    { intros a b A B. unfold cross_time. destruct (Qclt_le_dec (a / (a - b)) 0) as [|G]; [assumption|exfalso]. assert (D : (0 < a - b)%Qc) by (clear -B; qclra).
      apply (mul_le (a - b)) in G; [|exact D]. replace ((a - b) * (a / (a - b)))%Qc with a in G by (field; intros Q; rewrite Q in D; apply (Qclt_not_eq _ _ D); reflexivity). clear -A G. qclra. }
    unfold ev_z1 in F. destruct F as [(_ & A & B)|(_ & A & B)]; [apply G; assumption|]. rewrite cross_alt. apply G; [clear -A; qclra|clear -B; qclra]. }
  assert (FJ : In j (flagged c z2 nz)).
  { apply flagged_in. split; [exact Hj|]. rewrite ST. unfold xz. change (nltb QcNum) with Qcltb. change (n0 QcNum) with 0%Qc. destruct F as [(W & A & B)|(W & A & B)]; unfold watches_down, watches_up in W; rewrite W; cbn -[Qcltb Qcleb]; apply Qcltb_lt.
    - eapply Qclt_trans; eassumption.
    - eapply Qclt_trans; eassumption. }
  pose proof (pick_inv (c_zf1 c) z2 (flagged c z2 nz)) as PI. cbv zeta in PI.
  destruct (fold_left (pick (c_zf1 c) z2) (flagged c z2 nz) (1%Qc, None)) as [th [i|]] eqn:PK.
  - destruct PI as (-> & L1 & l1 & l2 & EF & A & B).
    assert (TI : (cross_time (nth i (c_zf1 c) 0%Qc) (nth i z2 0%Qc) < 0)%Qc).
    { rewrite EF in FJ. apply in_app_or in FJ. destruct FJ as [J|[<-|J]]; [eapply Qclt_trans; [apply A; exact J|exact TJ]|exact TJ|eapply Qcle_lt_trans; [apply B; exact J|exact TJ]]. }
    rewrite (end_event m nz p x1 x2 t2 c z2 _ i) with (1:=S) (2:=Z) (3:=L2) (4:=LX) (6:=PK) in E.
    + apply obind_inv in E. destruct E as (px & _ & E). unfold after_switch in E. apply obind_inv in E. destruct E as (zb & _ & E). apply obind_inv in E. destruct E as (r & _ & E).
      injection E as _ _ <-. cbn [ev_t]. change (nT QcNum) with Qc in *. revert TI T. generalize (cross_time (nth i (c_zf1 c) 0%Qc) (nth i z2 0%Qc)). change (nT QcNum) with Qc. generalize (c_t1 c). change (nT QcNum) with Qc. intros a b TI T.
      assert (D : (0 < t2 - a)%Qc) by (clear -T; qclra). pose proof (neg_prod _ _ D TI) as G. revert G. generalize ((t2 - a) * b)%Qc. intros q G. clear -G. qclra.
    + intros Q. rewrite Q in FJ. contradiction.
    + assert (In i (flagged c z2 nz)) as Q by (rewrite EF; apply in_or_app; right; left; reflexivity). apply flagged_in in Q. apply Q.
  - rewrite (end_lost m nz p x1 x2 t2 c z2 th) in E; auto; [discriminate|]. intros Q. rewrite Q in FJ. contradiction.
Qed.
