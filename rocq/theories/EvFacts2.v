(** EvFacts2.v - the loops of the linear event controller and a whole step end. *)
From Coq Require Import List Arith Bool ZArith QArith Qcanon Lia.
From Verif Require Import Base BaseFacts VecModel VOps RkModel NewtFacts RkFacts2 RkFacts4 EvModel EvSpec EvFacts.
Import ListNotations.
Local Open Scope nat_scope.

Definition flagged (c : ctl QcNum) (z2 : list Qc) (nz : nat) : list nat := filter (fun i => xz (N:=QcNum) (ev_flag c i) (ev_state c i) (nth i z2 0%Qc)) (seq 0 nz).
Lemma seq_split_at i n : i < n -> seq 0 n = seq 0 i ++ i :: seq (S i) (n - S i).
Proof. intros H. replace n with (i + S (n - S i)) at 1 by lia. rewrite seq_app. reflexivity. Qed.
Lemma changed_ok c (z2 : list Qc) nz : length (c_zf1 c) = nz -> length (c_state c) = nz -> length (c_flags c) = nz -> length z2 = nz ->
  changed (N:=QcNum) c z2 = Ret (flagged c z2 nz).
Proof.
  intros L1 L2 L3 L4. unfold changed. rewrite L1.
  match goal with |- ofor 0 nz ?b ?s = _ => destruct (ofor_inv (fun k l => l = filter (fun i => xz (N:=QcNum) (ev_flag c i) (ev_state c i) (nth i z2 0%Qc)) (seq 0 k)) 0 nz b s) as (r & E & H) end.
  - lia.
  - reflexivity.
  - intros k l (K0 & K) ->. cbv beta. change (nT QcNum) with Qc. rewrite (rdat_ok (A:=Qc) z2 k 0%Qc) by lia. cbn [obind].
    rewrite (rd_ok (c_state c) k 0%Z) by lia. cbn [obind]. rewrite (rd_ok (c_flags c) k 0%Z) by lia. cbn [obind].
    eexists. split; [reflexivity|]. rewrite seq_S, filter_app. cbn [filter plus]. fold (ev_flag c k). fold (ev_state c k).
    destruct (xz (N:=QcNum) (ev_flag c k) (ev_state c k) (nth k z2 0%Qc)); [reflexivity|rewrite app_nil_r; reflexivity].
  - rewrite E, H. reflexivity.
Qed.
Lemma filter_split {A} (f : A -> bool) l l1 x l2 : filter f l = l1 ++ x :: l2 -> exists a b, l = a ++ x :: b /\ filter f a = l1 /\ filter f b = l2.
Proof.
  revert l1; induction l as [|y l IH]; intros l1 H; cbn in H; [destruct l1; discriminate|].
  destruct (f y) eqn:E.
  - destruct l1 as [|w l1]; cbn in H; injection H as -> H.
    + exists [], l. cbn. auto.
    + destruct (IH _ H) as (a & b & -> & <- & <-). exists (w :: a), b. cbn. rewrite E. auto.
  - destruct (IH _ H) as (a & b & -> & <- & <-). exists (y :: a), b. cbn. rewrite E. auto.
Qed.
Definition pick (z1 z2 : list Qc) (st : Qc * option nat) (i : nat) : Qc * option nat :=
  let t := cross_time (nth i z1 0%Qc) (nth i z2 0%Qc) in if Qcltb t (fst st) then (t, Some i) else st.
Lemma earliest_fold (z1 z2 : list Qc) l st : (forall i, In i l -> i < length z1 /\ i < length z2) ->
  ofold (fun st i => a <- rdat z1 i ;; b <- rdat z2 i ;;
    let t := ndiv QcNum a (nsub QcNum a b) in Ret (if nltb QcNum t (fst st) then (t, Some i) else st)) l st = Ret (fold_left (pick z1 z2) l st).
Proof.
  revert st; induction l as [|i l IH]; intros st H; [reflexivity|]. cbn [ofold fold_left].
  destruct (H i (or_introl eq_refl)) as (H1 & H2).
  rewrite (rdat_ok (A:=Qc) z1 i 0%Qc) by lia. cbn [obind]. rewrite (rdat_ok (A:=Qc) z2 i 0%Qc) by lia. cbn [obind].
  rewrite IH by (intros; apply H; right; assumption). reflexivity.
Qed.
Lemma pick_inv (z1 z2 : list Qc) l : 
  let t i := cross_time (nth i z1 0%Qc) (nth i z2 0%Qc) in
  match fold_left (pick z1 z2) l (1%Qc, None) with
  | (tm, None) => tm = 1%Qc /\ forall j, In j l -> (1 <= t j)%Qc
  | (tm, Some i) => tm = t i /\ (tm < 1)%Qc /\ exists l1 l2, l = l1 ++ i :: l2 /\ (forall j, In j l1 -> (t i < t j)%Qc) /\ (forall j, In j l2 -> (t i <= t j)%Qc)
  end.
Proof.
  intros t. induction l as [|k l IH] using rev_ind; [cbn; split; [reflexivity|intros ? []]|].
  rewrite fold_left_app. cbn [fold_left]. destruct (fold_left (pick z1 z2) l (1%Qc, None)) as [tm [i|]].
  - destruct IH as (-> & L1 & l1 & l2 & -> & A & B). unfold pick. cbn [fst]. fold (t k). destruct (Qcltb (t k) (t i)) eqn:E; qb.
    + split; [reflexivity|]. split; [eapply Qclt_trans; eassumption|]. exists (l1 ++ i :: l2), []. split; [reflexivity|]. split; [|intros ? []].
      intros j Hj. apply in_app_or in Hj. destruct Hj as [Hj|[<-|Hj]].
      * eapply Qclt_trans; [exact E|apply A; exact Hj].
      * exact E.
      * eapply Qclt_le_trans; [exact E|apply B; exact Hj].
    + split; [reflexivity|]. split; [exact L1|]. exists l1, (l2 ++ [k]). split; [rewrite <- app_assoc; reflexivity|]. split; [exact A|].
      intros j Hj. apply in_app_or in Hj. destruct Hj as [Hj|[<-|[]]]; [apply B; exact Hj|exact E].
  - destruct IH as (-> & A). unfold pick. cbn [fst]. fold (t k). destruct (Qcltb (t k) 1) eqn:E; qb.
    + split; [reflexivity|]. split; [exact E|]. exists l, []. split; [reflexivity|]. split; [|intros ? []].
      intros j Hj. eapply Qclt_le_trans; [exact E|apply A; exact Hj].
    + split; [reflexivity|]. intros j Hj. apply in_app_or in Hj. destruct Hj as [Hj|[<-|[]]]; [apply A; exact Hj|exact E].
Qed.

Definition new_z (z1 z2 zb : list Qc) (flags : list Z) (th : Qc) (i : nat) : Qc :=
  if recomputed (nth i flags 0%Z) then nth i zb 0%Qc else between (nth i z1 0%Qc) (nth i z2 0%Qc) th.
Definition new_state (z1 z2 zb : list Qc) (flags st : list Z) (th : Qc) (it : nat) (tt : Z) (i : nat) : Z :=
  if recomputed (nth i flags 0%Z) then sgnf (N:=QcNum) (nth i zb 0%Qc) (nth i flags 0%Z)
  else if Nat.eqb i it then (if Z.eqb (Z.land (nth i flags 0%Z) 3) 3 then tt else sgnf (N:=QcNum) (between (nth i z1 0%Qc) (nth i z2 0%Qc) th) (nth i flags 0%Z))
  else nth i st 0%Z.
Lemma update_ok rec (z1 z2 zb : list Qc) flags th it tt st nz : length z1 = nz -> length z2 = nz -> length flags = nz -> length st = nz ->
  ((exists i, i < nz /\ recomputed (nth i flags 0%Z) = true) -> length zb = nz) ->
  exists z' st', c_update (N:=QcNum) rec z1 z2 zb flags th it tt st = Ret (z', st') /\ length z' = nz /\ length st' = nz /\
    forall i, i < nz -> nth i z' 0%Qc = new_z z1 z2 zb flags th i /\ nth i st' 0%Z = new_state z1 z2 zb flags st th it tt i.
Proof.
  intros L1 L2 L3 L4 LB. unfold c_update. change (nT QcNum) with Qc. rewrite L1.
  match goal with |- exists z' st', ofor 0 nz ?b ?s = _ /\ _ => 
    destruct (ofor_inv (fun k (q : list Qc * list Z) => length (fst q) = nz /\ length (snd q) = nz /\
       forall i, i < nz -> nth i (fst q) 0%Qc = (if i <? k then new_z z1 z2 zb flags th i else nth i z1 0%Qc) /\
                           nth i (snd q) 0%Z = (if i <? k then new_state z1 z2 zb flags st th it tt i else nth i st 0%Z)) 0 nz b s) as ([z' st'] & E & A & B & C) end.
  - lia.
  - split; [exact L1|]. split; [exact L4|]. intros i Hi. cbn. auto.
  - intros k [za sa] (K0 & K) (LA & LS & H). cbn [fst snd] in *. change (nT QcNum) with Qc in *.
    rewrite (rd_ok flags k 0%Z) by lia. cbn [obind].
    destruct (recomputed (nth k flags 0%Z)) eqn:ER.
    + assert (LB' : length zb = nz) by (apply LB; exists k; auto).
      rewrite (rdat_ok (A:=Qc) zb k 0%Qc) by lia. cbn [obind].
      rewrite (wrat_ok (A:=Qc) za k) by lia. cbn [obind]. rewrite (wr_ok sa k) by lia. cbn [obind].
      eexists. split; [reflexivity|]. cbn [fst snd]. rewrite !upd_length. split; [exact LA|]. split; [exact LS|].
      intros i Hi. destruct (H i Hi) as (H1 & H2). rewrite !nth_upd. destruct (Nat.eqb_spec i k) as [->|Q].
      * rewrite LA, LS. destruct (k <? nz) eqn:Q1; [|apply Nat.ltb_ge in Q1; lia]. replace (k <? S k) with true by (symmetry; apply Nat.ltb_lt; lia).
        unfold new_z, new_state. rewrite ER. auto.
      * cbn [andb]. replace (i <? S k) with (i <? k); [auto|]. destruct (i <? k) eqn:Q1, (i <? S k) eqn:Q2; auto; rewrite ?Nat.ltb_lt, ?Nat.ltb_ge in *; lia.
    + destruct (H k K) as (H1 & H2). rewrite Nat.ltb_irrefl in H1, H2.
      rewrite (rdat_ok (A:=Qc) za k 0%Qc) by lia. cbn [obind]. rewrite (rdat_ok (A:=Qc) z2 k 0%Qc) by lia. cbn [obind].
      rewrite (wrat_ok (A:=Qc) za k) by lia. cbn [obind].
      change (nadd QcNum (nmul QcNum (nth k za 0%Qc) (nsub QcNum (n1 QcNum) th)) (nmul QcNum (nth k z2 0%Qc) th)) with (between (nth k za 0%Qc) (nth k z2 0%Qc) th).
      rewrite H1.
      destruct (Nat.eqb_spec k it) as [Q|Q].
      * rewrite (wr_ok sa k) by lia. cbn [obind]. eexists. split; [reflexivity|]. cbn [fst snd]. rewrite !upd_length. split; [exact LA|]. split; [exact LS|].
        intros i Hi. destruct (H i Hi) as (H3 & H4). rewrite !nth_upd. destruct (Nat.eqb_spec i k) as [->|Q'].
        -- rewrite LA, LS. destruct (k <? nz) eqn:Q1; [|apply Nat.ltb_ge in Q1; lia]. replace (k <? S k) with true by (symmetry; apply Nat.ltb_lt; lia).
           unfold new_z, new_state. rewrite ER. rewrite (proj2 (Nat.eqb_eq k it) Q). auto.
        -- cbn [andb]. replace (i <? S k) with (i <? k); [auto|]. destruct (i <? k) eqn:Q1, (i <? S k) eqn:Q2; auto; rewrite ?Nat.ltb_lt, ?Nat.ltb_ge in *; lia.
      * eexists. split; [reflexivity|]. cbn [fst snd]. rewrite !upd_length. split; [exact LA|]. split; [exact LS|].
        intros i Hi. destruct (H i Hi) as (H3 & H4). rewrite !nth_upd. destruct (Nat.eqb_spec i k) as [->|Q'].
        -- rewrite LA. destruct (k <? nz) eqn:Q1; [|apply Nat.ltb_ge in Q1; lia]. replace (k <? S k) with true by (symmetry; apply Nat.ltb_lt; lia).
           unfold new_z, new_state. rewrite ER. rewrite (proj2 (Nat.eqb_neq k it) Q). rewrite H4, Nat.ltb_irrefl. auto.
        -- cbn [andb]. replace (i <? S k) with (i <? k); [auto|]. destruct (i <? k) eqn:Q1, (i <? S k) eqn:Q2; auto; rewrite ?Nat.ltb_lt, ?Nat.ltb_ge in *; lia.
  - exists z', st'. split; [exact E|]. cbn [fst snd] in *. split; [exact A|]. split; [exact B|]. intros i Hi. destruct (C i Hi) as (C1 & C2).
    rewrite (proj2 (Nat.ltb_lt i nz) Hi) in C1, C2. auto.
Qed.
