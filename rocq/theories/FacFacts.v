(** FacFacts.v - proofs about the factory *)
From Coq Require Import List Arith Lia Bool String Ascii.
Require Import Verif.Base Verif.BaseFacts Verif.SMap Verif.FacModel Verif.FacSpec.
Import ListNotations.
Local Open Scope string_scope.

Lemma app_key_inj a b s t : no_slash a -> no_slash b -> key a s = key b t -> a = b /\ s = t.
Proof.
  unfold key. revert b. induction a as [|x a IH]; intros [|y b]; simpl; intros Ha Hb E.
  - inversion E; auto.
  - inversion E; subst. exfalso. destruct Hb as [_ Hb]. destruct b as [|z b]; simpl in *.
    + inversion H1.
    + inversion H1; subst. destruct Hb as [Hb _]. auto.
  - inversion E; subst. exfalso. destruct Ha as [_ Ha]. destruct a as [|z a]; simpl in *.
    + inversion H1.
    + inversion H1; subst. destruct Ha as [Ha _]. auto.
  - inversion E; subst. destruct (IH b) as [-> ->]; auto; tauto.
Qed.

Lemma keqb_str a b : keqb TOstr a b = String.eqb a b.
Proof. destruct (keqb_spec TOstr a b); destruct (String.eqb_spec a b); auto; contradiction. Qed.

Definition ikey i := key (i_cls i) (i_reg i).
Definition ckey c := key (c_cls c) (c_str c).
Definition no_slash_i i := no_slash (i_cls i).
Definition no_slash_c c := no_slash (c_cls c).

Lemma ikey_inj a b : no_slash_i a -> no_slash_i b -> ikey a = ikey b -> a = b.
Proof. destruct a, b. unfold ikey. simpl. intros Ha Hb E. apply app_key_inj in E; auto. destruct E; subst; auto. Qed.
Lemma ckey_inj a b : no_slash_c a -> no_slash_c b -> ckey a = ckey b -> a = b.
Proof. destruct a, b. unfold ckey. simpl. intros Ha Hb E. apply app_key_inj in E; auto. destruct E; subst; auto. Qed.
Lemma iface_eqb_spec a b : reflect (a = b) (iface_eqb a b).
Proof.
  destruct a as [a1 a2], b as [b1 b2]. unfold iface_eqb; simpl.
  destruct (String.eqb_spec a1 b1); destruct (String.eqb_spec a2 b2); simpl; constructor; congruence.
Qed.
Lemma impl_eqb_spec a b : reflect (a = b) (impl_eqb a b).
Proof.
  destruct a as [a1 a2], b as [b1 b2]. unfold impl_eqb; simpl.
  destruct (String.eqb_spec a1 b1); destruct (String.eqb_spec a2 b2); simpl; constructor; congruence.
Qed.

(** registry of interface i in storage (empty when the cell does not exist) *)
Definition reg_of (st : storage) i : list (string * impl) :=
  match mfind TOstr (ikey i) st with Some (CReg r) => r | _ => [] end.
Definition id_of (st : storage) c : string :=
  match mfind TOstr (ckey c) st with Some (CId s) => s | _ => "" end.

(** names universe: all interfaces and classes named in ops satisfy good names *)
Record world := { Pi : iface -> Prop; Pc : impl -> Prop }.
Definition goodw (w : world) : Prop :=
  (forall i, Pi w i -> no_slash_i i) /\ (forall c, Pc w c -> no_slash_c c) /\
  (forall i c, Pi w i -> Pc w c -> i_cls i <> c_cls c).

Definition inv (w : world) (st : storage) : Prop :=
  msorted TOstr st /\
  (forall i, Pi w i -> forall s, mfind TOstr (ikey i) st <> Some (CId s)) /\
  (forall c, Pc w c -> forall r, mfind TOstr (ckey c) st <> Some (CReg r)) /\
  (forall i, Pi w i -> msorted TOstr (reg_of st i)).

Lemma reg_cell_ok w st i : goodw w -> inv w st -> Pi w i ->
  exists st', reg_cell st i = Ret (st', reg_of st i) /\ inv w st' /\
    (forall i', Pi w i' -> reg_of st' i' = reg_of st i') /\ (forall c, Pc w c -> id_of st' c = id_of st c) /\
    mfind TOstr (ikey i) st' = Some (CReg (reg_of st i)).
Proof.
  intros (G1 & G2 & G3) (I1 & I2 & I3 & I4) Hi. unfold reg_cell. fold (ikey i).
  destruct (mfind TOstr (ikey i) st) as [[r|s]|] eqn:E.
  - exists st. unfold reg_of at 1. rewrite E. repeat split; auto. unfold reg_of; rewrite E; auto.
  - exfalso. eapply I2; eauto.
  - assert (R0 : reg_of st i = []) by (unfold reg_of; rewrite E; auto).
    assert (F : forall k, mfind TOstr k (mput TOstr (ikey i) (CReg []) st) = if keqb TOstr k (ikey i) then Some (CReg []) else mfind TOstr k st)
      by (intro; apply mfind_put; auto).
    assert (RR : forall i', Pi w i' -> reg_of (mput TOstr (ikey i) (CReg []) st) i' = reg_of st i').
    { intros i' Hi'. unfold reg_of. rewrite F. destruct (keqb_spec TOstr (ikey i') (ikey i)) as [e|]; auto.
      rewrite e, E. auto. }
    eexists. split; [rewrite R0; reflexivity|]. split; [|split; [|split]]; auto.
    + split; [apply mput_sorted; auto|]. split; [|split].
      * intros i' Hi' s. rewrite F. destruct (keqb_spec TOstr (ikey i') (ikey i)); [discriminate|auto].
      * intros c Hc r. rewrite F. destruct (keqb_spec TOstr (ckey c) (ikey i)) as [e|]; [|auto].
        exfalso. apply app_key_inj in e; [|apply G2; auto|apply G1; auto]. destruct e as [e _]. apply (G3 i c); auto.
      * intros i' Hi'. rewrite RR by auto. auto.
    + intros c Hc. unfold id_of. rewrite F. destruct (keqb_spec TOstr (ckey c) (ikey i)) as [e|]; auto.
      exfalso. apply app_key_inj in e; [|apply G2; auto|apply G1; auto]. destruct e as [e _]. apply (G3 i c); auto.
    + rewrite F, R0. unfold keqb. rewrite cmp_refl. auto.
Qed.
Lemma id_cell_ok w st c : goodw w -> inv w st -> Pc w c ->
  exists st', id_cell st c = Ret (st', id_of st c) /\ inv w st' /\
    (forall i', Pi w i' -> reg_of st' i' = reg_of st i') /\ (forall c', Pc w c' -> id_of st' c' = id_of st c').
Proof.
  intros (G1 & G2 & G3) (I1 & I2 & I3 & I4) Hc. unfold id_cell. fold (ckey c).
  destruct (mfind TOstr (ckey c) st) as [[r|s]|] eqn:E.
  - exfalso. eapply I3; eauto.
  - exists st. unfold id_of at 1. rewrite E. repeat split; auto.
  - assert (R0 : id_of st c = "") by (unfold id_of; rewrite E; auto).
    assert (F : forall k, mfind TOstr k (mput TOstr (ckey c) (CId "") st) = if keqb TOstr k (ckey c) then Some (CId "") else mfind TOstr k st)
      by (intro; apply mfind_put; auto).
    assert (RR : forall i', Pi w i' -> reg_of (mput TOstr (ckey c) (CId "") st) i' = reg_of st i').
    { intros i' Hi'. unfold reg_of. rewrite F. destruct (keqb_spec TOstr (ikey i') (ckey c)) as [e|]; auto.
      exfalso. apply app_key_inj in e; [|apply G1; auto|apply G2; auto]. destruct e as [e _]. apply (G3 i' c); auto. }
    eexists. split; [rewrite R0; reflexivity|]. split; [|split]; auto.
    + split; [apply mput_sorted; auto|]. split; [|split].
      * intros i' Hi' s. rewrite F. destruct (keqb_spec TOstr (ikey i') (ckey c)) as [e|]; auto.
        exfalso. apply app_key_inj in e; [|apply G1; auto|apply G2; auto]. destruct e as [e _]. apply (G3 i' c); auto.
      * intros c' Hc' r. rewrite F. destruct (keqb_spec TOstr (ckey c') (ckey c)); [discriminate|auto].
      * intros i' Hi'. rewrite RR by auto. auto.
    + intros c' Hc'. unfold id_of. rewrite F. destruct (keqb_spec TOstr (ckey c') (ckey c)) as [e|]; auto.
      rewrite e, E. auto.
Qed.

Lemma registrator_ok w st i c id : goodw w -> inv w st -> Pi w i -> Pc w c ->
  exists st', registrator st i c id = Ret st' /\ inv w st' /\
    (forall i', Pi w i' -> reg_of st' i' = if iface_eqb i' i then mput TOstr id c (reg_of st i) else reg_of st i') /\
    (forall c', Pc w c' -> id_of st' c' = if impl_eqb c' c then id else id_of st c').
Proof.
  intros GW HI Hi Hc. pose proof GW as (G1 & G2 & G3).
  unfold registrator, registerType.
  destruct (reg_cell_ok w st i GW HI Hi) as (st1 & E1 & (J1 & J2 & J3 & J4) & R1 & D1 & M1).
  rewrite E1. cbn [obind fst snd]. fold (ikey i).
  set (st2 := mput TOstr (ikey i) (CReg (mput TOstr id c (reg_of st i))) st1).
  assert (F : forall k, mfind TOstr k st2 = if keqb TOstr k (ikey i) then Some (CReg (mput TOstr id c (reg_of st i))) else mfind TOstr k st1)
    by (intro; apply mfind_put; auto).
  assert (R2 : forall i', Pi w i' -> reg_of st2 i' = if iface_eqb i' i then mput TOstr id c (reg_of st i) else reg_of st i').
  { intros i' Hi'. unfold reg_of at 1. rewrite F.
    destruct (keqb_spec TOstr (ikey i') (ikey i)) as [e|e].
    - apply ikey_inj in e; auto. subst. destruct (iface_eqb_spec i i); [auto|contradiction].
    - destruct (iface_eqb_spec i' i); [subst; contradiction|]. fold (reg_of st1 i'). apply R1; auto. }
  assert (D2 : forall c', Pc w c' -> id_of st2 c' = id_of st c').
  { intros c' Hc'. unfold id_of at 1. rewrite F. destruct (keqb_spec TOstr (ckey c') (ikey i)) as [e|].
    - exfalso. apply app_key_inj in e; [|apply G2; auto|apply G1; auto]. destruct e as [e _]. apply (G3 i c'); auto.
    - fold (id_of st1 c'). apply D1; auto. }
  assert (HI2 : inv w st2).
  { split; [apply mput_sorted; auto|]. split; [|split].
    - intros i' Hi' s. rewrite F. destruct (keqb_spec TOstr (ikey i') (ikey i)); [discriminate|auto].
    - intros c' Hc' r. rewrite F. destruct (keqb_spec TOstr (ckey c') (ikey i)) as [e|]; [|auto].
      exfalso. apply app_key_inj in e; [|apply G2; auto|apply G1; auto]. destruct e as [e _]. apply (G3 i c'); auto.
    - intros i' Hi'. rewrite R2 by auto. destruct HI as (_ & _ & _ & I4).
      destruct (iface_eqb i' i); [apply mput_sorted|]; auto. }
  destruct (id_cell_ok w st2 c GW HI2 Hc) as (st3 & E3 & (K1 & K2 & K3 & K4) & R3 & D3).
  rewrite E3. cbn [obind fst snd]. fold (ckey c).
  assert (F3 : forall k, mfind TOstr k (mput TOstr (ckey c) (CId id) st3) = if keqb TOstr k (ckey c) then Some (CId id) else mfind TOstr k st3)
    by (intro; apply mfind_put; auto).
  assert (R4 : forall i', Pi w i' -> reg_of (mput TOstr (ckey c) (CId id) st3) i' = reg_of st3 i').
  { intros i' Hi'. unfold reg_of. rewrite F3. destruct (keqb_spec TOstr (ikey i') (ckey c)) as [e|]; auto.
    exfalso. apply app_key_inj in e; [|apply G1; auto|apply G2; auto]. destruct e as [e _]. apply (G3 i' c); auto. }
  eexists. split; [reflexivity|]. split; [|split].
  - split; [apply mput_sorted; auto|]. split; [|split].
    + intros i' Hi' s. rewrite F3. destruct (keqb_spec TOstr (ikey i') (ckey c)) as [e|]; auto.
      exfalso. apply app_key_inj in e; [|apply G1; auto|apply G2; auto]. destruct e as [e _]. apply (G3 i' c); auto.
    + intros c' Hc' r. rewrite F3. destruct (keqb_spec TOstr (ckey c') (ckey c)); [discriminate|auto].
    + intros i' Hi'. rewrite R4 by auto. auto.
  - intros i' Hi'. rewrite R4, R3, R2 by auto. auto.
  - intros c' Hc'. unfold id_of at 1. rewrite F3. destruct (keqb_spec TOstr (ckey c') (ckey c)) as [e|e].
    + apply ckey_inj in e; auto. subst. destruct (impl_eqb_spec c c); [auto|contradiction].
    + destruct (impl_eqb_spec c' c); [subst; contradiction|]. fold (id_of st3 c'). rewrite D3, D2 by auto. auto.
Qed.

Definition ok_op (w : world) (o : fop) : Prop :=
  match o with
  | OReg i c _ => Pi w i /\ Pc w c | ONew i _ => Pi w i | OTypes i => Pi w i | OTypeId c => Pc w c
  end.

Lemma last_reg_app i id h1 h2 : last_reg i id (h1 ++ h2) =
  match last_reg i id h2 with Some c => Some c | None => last_reg i id h1 end.
Proof.
  induction h1 as [|o h1 IH]; simpl; [destruct (last_reg i id h2); auto|].
  destruct o; auto. rewrite IH. destruct (last_reg i id h2); auto.
Qed.
Lemma last_id_app c h1 h2 : last_id c (h1 ++ h2) =
  match last_id c h2 with Some s => Some s | None => last_id c h1 end.
Proof.
  induction h1 as [|o h1 IH]; simpl; [destruct (last_id c h2); auto|].
  destruct o; auto. rewrite IH. destruct (last_id c h2); auto.
Qed.

Lemma frun_gen w h : goodw w -> (forall o, In o h -> ok_op w o) -> forall st h0, inv w st ->
  (forall i id, Pi w i -> mfind TOstr id (reg_of st i) = last_reg i id h0) ->
  (forall c, Pc w c -> id_of st c = match last_id c h0 with Some s => s | None => "" end) ->
  exists st', ofold fstep h st = Ret st' /\ inv w st' /\
    (forall i id, Pi w i -> mfind TOstr id (reg_of st' i) = last_reg i id (h0 ++ h)) /\
    (forall c, Pc w c -> id_of st' c = match last_id c (h0 ++ h) with Some s => s | None => "" end).
Proof.
  intros GW. induction h as [|o h IH]; intros HO st h0 HI HR HD.
  - exists st. rewrite app_nil_r. simpl. auto.
  - assert (HO1 : ok_op w o) by (apply HO; left; auto).
    assert (HO2 : forall o, In o h -> ok_op w o) by (intros; apply HO; right; auto).
    assert (STEP : exists st', fstep st o = Ret st' /\ inv w st' /\
       (forall i id, Pi w i -> mfind TOstr id (reg_of st' i) = last_reg i id (h0 ++ [o])) /\
       (forall c, Pc w c -> id_of st' c = match last_id c (h0 ++ [o]) with Some s => s | None => "" end)).
    { destruct o as [i c id|i id|i|c]; simpl in *.
      - destruct HO1 as [Hi Hc]. destruct (registrator_ok w st i c id GW HI Hi Hc) as (st' & E & HI' & R & D).
        exists st'. split; auto. split; auto. split.
        + intros i' id' Hi'. rewrite R by auto. rewrite last_reg_app. simpl.
          destruct (iface_eqb_spec i' i) as [->|]; simpl.
          * rewrite mfind_put by (apply HI; auto). rewrite keqb_str.
            destruct (String.eqb id' id); auto.
          * auto.
        + intros c' Hc'. rewrite D by auto. rewrite last_id_app. simpl. destruct (impl_eqb c' c); auto.
      - destruct (reg_cell_ok w st i GW HI HO1) as (st' & E & HI' & R & D & _).
        exists st'. unfold newInstance. rewrite E. cbn [obind fst snd].
        split; [destruct (mfind TOstr id (reg_of st i)); auto|]. split; auto. split.
        + intros. rewrite R by auto. rewrite last_reg_app. simpl. auto.
        + intros. rewrite D by auto. rewrite last_id_app. simpl. auto.
      - destruct (reg_cell_ok w st i GW HI HO1) as (st' & E & HI' & R & D & _).
        exists st'. unfold registeredTypes. rewrite E. cbn [obind fst snd]. split; auto. split; auto. split.
        + intros. rewrite R by auto. rewrite last_reg_app. simpl. auto.
        + intros. rewrite D by auto. rewrite last_id_app. simpl. auto.
      - destruct (id_cell_ok w st c GW HI HO1) as (st' & E & HI' & R & D).
        exists st'. unfold typeIdOf. rewrite E. cbn [obind fst snd]. split; auto. split; auto. split.
        + intros. rewrite R by auto. rewrite last_reg_app. simpl. auto.
        + intros. rewrite D by auto. rewrite last_id_app. simpl. auto. }
    destruct STEP as (st1 & E1 & HI1 & R1 & D1).
    destruct (IH HO2 st1 (h0 ++ [o])%list HI1 R1 D1) as (st2 & E2 & HI2 & R2 & D2).
    exists st2. simpl. rewrite E1. cbn [obind]. rewrite <- app_assoc in R2, D2. auto.
Qed.

Definition world_of (h : list fop) (i0 : iface -> Prop) (c0 : impl -> Prop) : world :=
  {| Pi := fun i => mentions_iface h i \/ i0 i; Pc := fun c => mentions_impl h c \/ c0 c |}.

Lemma frun_ok h (i0 : iface -> Prop) (c0 : impl -> Prop) : good_names h -> disjoint_names h ->
  (forall i, i0 i -> ok_query h i) -> (forall c, c0 c -> ok_class h c) ->
  (forall i c, i0 i -> c0 c -> i_cls i <> c_cls c) ->
  let w := world_of h i0 c0 in
  goodw w /\ exists st, frun h = Ret st /\ inv w st /\
    (forall i id, Pi w i -> mfind TOstr id (reg_of st i) = last_reg i id h) /\
    (forall c, Pc w c -> id_of st c = match last_id c h with Some s => s | None => "" end).
Proof.
  intros (N1 & N2 & N3 & N4) DJ Q1 Q2 Q3 w.
  assert (GW : goodw w).
  { split; [|split]; simpl.
    - intros i [[(c & id & H)|[(id & H)|H]]|H].
      + apply (N1 i c id H). + apply (N2 i id H). + apply (N3 i H). + apply (Q1 i H).
    - intros c [[(i & id & H)|H]|H].
      + apply (N1 i c id H). + apply (N4 c H). + apply (Q2 c H).
    - intros i c [Hi|Hi] [Hc|Hc].
      + apply DJ; auto. + apply (Q2 c Hc); auto. + apply (Q1 i Hi); auto. + apply Q3; auto. }
  split; auto. unfold frun.
  destruct (frun_gen w h GW) with (st := @nil (string * cell)) (h0 := @nil fop) as (st & E & HI & R & D).
  - intros o Ho. destruct o; simpl.
    + split; left; [left; eauto|left; eauto].
    + left. right. left. eauto.
    + left. right. right. auto.
    + left. right. auto.
  - unfold inv. simpl. repeat split; auto; try discriminate.
  - reflexivity.
  - reflexivity.
  - exists st. auto.
Qed.

Lemma factory_lookup h i id : good_names h -> disjoint_names h -> ok_query h i ->
  exists st, frun h = Ret st /\
    (forall c, last_reg i id h = Some c -> exists st', newInstance st i id = Ret (st', c)) /\
    (last_reg i id h = None -> newInstance st i id = Throw) /\
    (exists st', isTypeRegistered st i id = Ret (st', match last_reg i id h with Some _ => true | None => false end)).
Proof.
  intros N DJ HQ.
  destruct (frun_ok h (fun i' => i' = i) (fun _ => False) N DJ) as (GW & st & E & HI & R & D); try tauto.
  { intros; subst; auto. }
  exists st. split; auto.
  assert (Pi0 : Pi (world_of h (fun i' => i' = i) (fun _ => False)) i) by (right; auto).
  destruct (reg_cell_ok _ st i GW HI Pi0) as (st' & E1 & _).
  unfold newInstance, isTypeRegistered. rewrite E1. cbn [obind fst snd]. rewrite R by auto. split; [|split].
  - intros c ->. eauto.
  - intros ->. auto.
  - destruct (last_reg i id h); eauto.
Qed.

Lemma factory_types h i : good_names h -> disjoint_names h -> ok_query h i ->
  exists st st' l, frun h = Ret st /\ registeredTypes st i = Ret (st', l) /\
    NoDup l /\ (forall id, In id l <-> last_reg i id h <> None) /\
    (forall l1 a l2 b l3, l = (l1 ++ a :: l2 ++ b :: l3)%list -> str_cmp a b = Lt).
Proof.
  intros N DJ HQ.
  destruct (frun_ok h (fun i' => i' = i) (fun _ => False) N DJ) as (GW & st & E & HI & R & D); try tauto.
  { intros; subst; auto. }
  assert (Pi0 : Pi (world_of h (fun i' => i' = i) (fun _ => False)) i) by (right; auto).
  destruct (reg_cell_ok _ st i GW HI Pi0) as (st' & E1 & _).
  exists st, st', (map fst (reg_of st i)). unfold registeredTypes. rewrite E1. cbn [obind fst snd].
  assert (SO : msorted TOstr (reg_of st i)) by (apply HI; auto).
  split; auto. split; auto. split; [eapply msorted_NoDup; eauto|]. split.
  - intro id. rewrite <- R by auto. split.
    + intros Hin. apply in_map_iff in Hin. destruct Hin as ((k, v) & E2 & Hin). simpl in E2. subst.
      apply (mfind_In TOstr) in Hin; auto. congruence.
    + intros H. destruct (mfind TOstr id (reg_of st i)) eqn:F; [|congruence]. apply mfind_In in F; auto.
      apply in_map_iff. exists (id, i0). auto.
  - generalize dependent (reg_of st i). intros m _ SO l1 a l2 b l3 EL. clear -SO EL.
    revert l1 EL. induction m as [|(k, v) m IH]; intros l1 EL.
    + destruct l1; discriminate.
    + destruct SO as [S1 S2]. destruct l1 as [|x l1]; simpl in EL.
      * inversion EL; subst. assert (In b (map fst m)) by (rewrite H1; apply in_or_app; right; left; auto).
        apply in_map_iff in H. destruct H as ((k', v') & E2 & H). simpl in E2. subst. apply (S1 _ _ H).
      * inversion EL; subst. eapply IH; eauto.
Qed.

Lemma factory_typeid h i id c : good_names h -> disjoint_names h -> ok_query h i -> last_reg i id h = Some c ->
  last_id c h = Some id ->
  exists st st' , frun h = Ret st /\ newInstance st i id = Ret (st', c) /\
    exists st'', typeIdOf st' c = Ret (st'', id).
Proof.
  intros N DJ HQ HL HD.
  assert (MC : mentions_impl h c).
  { left. clear -HD. induction h as [|o h IH]; simpl in HD; [discriminate|].
    destruct o as [i0 c0 id0|i0 id0|i0|c0].
    - destruct (last_id c h) eqn:EL.
      + destruct (IH HD) as (i1 & id1 & H). exists i1, id1. right; auto.
      + destruct (impl_eqb_spec c c0); [|discriminate]. subst. exists i0, id0. left; auto.
    - destruct (IH HD) as (i1 & id1 & H). exists i1, id1. right; auto.
    - destruct (IH HD) as (i1 & id1 & H). exists i1, id1. right; auto.
    - destruct (IH HD) as (i1 & id1 & H). exists i1, id1. right; auto. }
  destruct (frun_ok h (fun i' => i' = i) (fun _ => False) N DJ) as (GW & st & E & HI & R & D); try tauto.
  { intros; subst; auto. }
  assert (Pi0 : Pi (world_of h (fun i' => i' = i) (fun _ => False)) i) by (right; auto).
  assert (Pc0 : Pc (world_of h (fun i' => i' = i) (fun _ => False)) c) by (left; auto).
  destruct (reg_cell_ok _ st i GW HI Pi0) as (st' & E1 & HI' & R' & D' & _).
  exists st, st'. split; auto. split.
  - unfold newInstance. rewrite E1. cbn [obind fst snd]. rewrite R, HL by auto. auto.
  - destruct (id_cell_ok _ st' c GW HI' Pc0) as (st'' & E2 & _). exists st''. unfold typeIdOf. rewrite E2.
    rewrite D', D, HD by auto. auto.
Qed.
