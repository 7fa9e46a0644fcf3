(** PersFacts.v - proofs for C76. *)
From Coq Require Import List Arith Bool ZArith String Lia.
From Verif Require Import Base SMap FacModel FacSpec FacFacts ParModel ParFacts CfgModel InitModel InitSpec InitFacts PersModel PersSpec.
Import ListNotations.
Local Open Scope string_scope.
Local Open Scope list_scope.

(** * The registry *)
Lemma last_reg_in i id h x : last_reg i id h = Some x -> In (OReg i x id) h.
Proof.
  induction h as [|o h IH]; simpl; [discriminate|]. destruct o as [i' c' id'|i1 id1|i1|c1]; try (intros Q; right; auto; fail).
  destruct (last_reg i id h) as [c''|] eqn:E; [intros H; injection H as ->; right; apply IH; reflexivity|].
  destruct (iface_eqb_spec i i'); simpl; [|discriminate]. destruct (String.eqb_spec id id'); [|discriminate]. intros H; injection H as ->. subst. now left.
Qed.
Lemma last_reg_some i id h x : In (OReg i x id) h -> exists y, last_reg i id h = Some y.
Proof.
  induction h as [|o h IH]; simpl; [tauto|]. intros [->|H].
  - destruct (last_reg i id h); [eauto|]. destruct (iface_eqb_spec i i); [|congruence]. rewrite String.eqb_refl. simpl. eauto.
  - destruct (IH H) as (y & E). destruct o; rewrite ?E; eauto.
Qed.
Lemma last_id_in c h s : last_id c h = Some s -> exists i, In (OReg i c s) h.
Proof.
  induction h as [|o h IH]; simpl; [discriminate|]. destruct o as [i' c' id'|i1 id1|i1|c1]; try (intros Q; destruct (IH Q) as (j & J); exists j; right; exact J).
  destruct (last_id c h) as [s'|] eqn:E; [intros H; injection H as ->; destruct (IH eq_refl) as (j & J); exists j; now right|].
  destruct (impl_eqb_spec c c'); [|discriminate]. intros H; injection H as ->. subst. exists i'. now left.
Qed.
Lemma last_id_some i c s h : In (OReg i c s) h -> exists y, last_id c h = Some y.
Proof.
  induction h as [|o h IH]; simpl; [tauto|]. intros [->|H].
  - destruct (last_id c h); [eauto|]. destruct (impl_eqb_spec c c); [|congruence]. eauto.
  - destruct (IH H) as (y & E). destruct o; rewrite ?E; eauto.
Qed.
Lemma in_all c i : interface_of c = Some i -> In c all_classes.
Proof. destruct c; simpl; try discriminate; intros _; unfold all_classes; repeat (try (left; reflexivity); right). Qed.
Lemma registered_in nm c i : interface_of c = Some i -> In (OReg (n_iface nm i) (n_impl nm c) (library_id c)) (registrations nm).
Proof. intros H. unfold registrations. apply in_flat_map. exists c. split; [eapply in_all; eauto|]. rewrite H. now left. Qed.
Lemma registered_inv nm i x id : In (OReg i x id) (registrations nm) -> exists c j, interface_of c = Some j /\ i = n_iface nm j /\ x = n_impl nm c /\ id = library_id c.
Proof.
  unfold registrations. intros H. apply in_flat_map in H. destruct H as (c & _ & H). destruct (interface_of c) as [j|] eqn:E; [|destruct H].
  destruct H as [H|[]]. injection H as <- <- <-. eauto 6.
Qed.
Lemma id_inj c d i : interface_of c = Some i -> interface_of d = Some i -> library_id c = library_id d -> c = d.
Proof. destruct c; simpl; intros H; try discriminate H; injection H as <-; destruct d; simpl; intros H; try discriminate H; intros K; try discriminate K; reflexivity. Qed.
Lemma class_named_ok nm c : good_naming nm -> In c all_classes -> class_named nm (n_impl nm c) = Some c.
Proof.
  intros (_ & _ & _ & I & _) H. unfold class_named. destruct (find _ all_classes) as [d|] eqn:E.
  - apply find_some in E. destruct E as [_ E]. unfold impl_same in E. apply andb_prop in E. destruct E as [E1 E2].
    apply String.eqb_eq in E1, E2. f_equal. apply I. destruct (n_impl nm c), (n_impl nm d). simpl in *. congruence.
  - exfalso. apply find_none with (x := c) in E; [|exact H]. unfold impl_same in E. rewrite !String.eqb_refl in E. discriminate.
Qed.
Section Reg.
Variables (nm : naming) (h : list fop) (st : storage).
Hypothesis L : runs_library nm h st.
Lemma answers : (forall i id, match last_reg (n_iface nm i) id h with Some x => exists st', newInstance st (n_iface nm i) id = Ret (st', x) | None => newInstance st (n_iface nm i) id = Throw end) /\
  (forall c, exists st', typeIdOf st (n_impl nm c) = Ret (st', match last_id (n_impl nm c) h with Some s => s | None => "" end)).
Proof.
  destruct L as ((N1 & N2 & N3 & N4 & N5) & G & D & Q & C & _ & R).
  destruct (frun_ok h (fun i => exists j, i = n_iface nm j) (fun c => exists d, c = n_impl nm d) G D) as (GW & st' & E & HI & RR & DD).
  - intros i (j & ->). apply Q.
  - intros c (d & ->). apply C.
  - intros i c (j & ->) (d & ->). apply N5.
  - assert (st' = st) by congruence. subst st'. split.
    + intros i id. assert (Pi0 : Pi (world_of h (fun i => exists j, i = n_iface nm j) (fun c => exists d, c = n_impl nm d)) (n_iface nm i)) by (right; eauto).
      destruct (reg_cell_ok _ st _ GW HI Pi0) as (s' & E1 & _). unfold newInstance. rewrite E1. cbn [obind fst snd]. rewrite RR by auto.
      destruct (last_reg (n_iface nm i) id h); [eauto|reflexivity].
    + intros c. assert (Pc0 : Pc (world_of h (fun i => exists j, i = n_iface nm j) (fun c => exists d, c = n_impl nm d)) (n_impl nm c)) by (right; eauto).
      destruct (id_cell_ok _ st _ GW HI Pc0) as (s' & E1 & _). exists s'. unfold typeIdOf. rewrite E1, DD by auto. reflexivity.
Qed.
Lemma library_last_reg c i : interface_of c = Some i -> last_reg (n_iface nm i) (library_id c) h = Some (n_impl nm c).
Proof.
  intros H. destruct L as (N & _ & _ & _ & _ & (L1 & L2) & _). destruct (last_reg_some _ _ _ _ (L1 _ (registered_in nm c i H))) as (y & E). rewrite E.
  pose proof (last_reg_in _ _ _ _ E) as I. apply L2 in I; [|left; exists i; split; [reflexivity|exists c; auto]].
  apply registered_inv in I. destruct I as (d & j & Hd & Ei & -> & Eid). destruct N as (_ & _ & N & _). apply N in Ei. subst j.
  rewrite (id_inj c d i); auto.
Qed.
Lemma library_last_id c i : interface_of c = Some i -> last_id (n_impl nm c) h = Some (library_id c).
Proof.
  intros H. destruct L as (N & _ & _ & _ & _ & (L1 & L2) & _). destruct (last_id_some _ _ _ _ (L1 _ (registered_in nm c i H))) as (y & E). rewrite E.
  destruct (last_id_in _ _ _ E) as (j & I). apply L2 in I; [|right; eauto].
  apply registered_inv in I. destruct I as (d & k & Hd & _ & Ed & ->). destruct N as (_ & _ & _ & N & _). apply N in Ed. now subst.
Qed.
Lemma registry_ok : (forall c i, interface_of c = Some i -> (exists st', newInstance st (n_iface nm i) (library_id c) = Ret (st', n_impl nm c)) /\ (exists st', typeIdOf st (n_impl nm c) = Ret (st', library_id c))) /\
  knows_library (process nm st).
Proof.
  destruct answers as [A B]. assert (X : forall c i, interface_of c = Some i -> (exists st', newInstance st (n_iface nm i) (library_id c) = Ret (st', n_impl nm c)) /\ (exists st', typeIdOf st (n_impl nm c) = Ret (st', library_id c))).
  { intros c i H. split.
    - specialize (A i (library_id c)). rewrite (library_last_reg c i H) in A. exact A.
    - specialize (B c). rewrite (library_last_id c i H) in B. exact B. }
  split; [exact X|]. intros c i H. destruct (X c i H) as ((s1 & E1) & s2 & E2). unfold process. cbn [r_new r_id]. rewrite E1, E2. cbn [snd]. split; [|reflexivity].
  apply class_named_ok; [apply L|eapply in_all; eauto].
Qed.
Lemma registry_only i id : (forall j x s, In (OReg j x s) h -> In (OReg j x s) (registrations nm)) -> (forall c, interface_of c = Some i -> library_id c <> id) ->
  newInstance st (n_iface nm i) id = Throw /\ r_new (process nm st) i id = None.
Proof.
  intros O N. destruct answers as [A _]. specialize (A i id). destruct (last_reg (n_iface nm i) id h) as [x|] eqn:E.
  - exfalso. apply last_reg_in, O, registered_inv in E. destruct E as (c & j & Hc & Ei & _ & ->). destruct L as ((_ & _ & I & _) & _). apply I in Ei. subst j. now apply (N c).
  - split; [exact A|]. unfold process. cbn [r_new]. now rewrite A.
Qed.
End Reg.
