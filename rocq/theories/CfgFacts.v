(** CfgFacts.v - proofs about ComponentConfiguration and notified properties *)
From Coq Require Import List Arith Lia ZArith Bool String.
Require Import Verif.Base Verif.BaseFacts Verif.SMap Verif.ObsModel Verif.ObsSpec Verif.ObsFacts Verif.CfgModel Verif.CfgSpec.
Import ListNotations.

Lemma tassign_noub p : forall r v, tassign r p v <> UB.
Proof.
  induction p as [|a p IH]; intros r v; [discriminate|]. cbn [tassign]. destruct (mfind TOstr a r) as [[s n]|]; [|discriminate].
  destruct p as [|b p]; [discriminate|]. destruct n as [r'|]; [|discriminate]. specialize (IH r' v).
  destruct (tassign r' (b :: p) v); [discriminate|discriminate|congruence].
Qed.

Section F.
Variable P : provider.
Lemma load_coherent c s : coherent P c s ->
  exists c', load P c = (c', Ret tt) /\ coherent P c' s /\ c_known P c' = true.
Proof.
  intros [A B]. unfold load. destruct (c_known P c) eqn:K.
  - exists c. split; auto. split; auto. split; auto.
  - unfold parameterProvider, current in *. destruct (c_prov P c) as [p|] eqn:E1.
    + inversion A; subst. cbn [snd fst]. eexists. split; [reflexivity|]. split; auto.
      split; [unfold current; simpl; rewrite E1; auto|]. simpl. rewrite E1. auto.
    + destruct (c_sup P c) as [x|] eqn:E2; [|discriminate]. subst x. cbn [snd fst].
      eexists. split; [reflexivity|]. split; auto. split; [reflexivity|]. simpl. auto.
Qed.

Lemma step_coherent c s o : coherent P c s -> plain P o -> accepted P s [o] ->
  snd (cstep P c o) = snd (dstep P s o) /\ coherent P (fst (cstep P c o)) (fst (dstep P s o)).
Proof.
  intros H HP HA. destruct (load_coherent c s H) as (c' & L & H' & K).
  destruct H' as [A B]. destruct (B K) as (B1 & B2 & B3).
  destruct o as [p|p v|p|[x|]|x]; simpl in HP; try contradiction; cbn [cstep dstep].
  - unfold cvalue. rewrite L. cbn [fst snd]. rewrite B1. split; auto. split; auto.
  - unfold csetValue. rewrite L. cbn [fst snd]. rewrite B1.
    cbn [accepted] in HA. destruct HA as [HA _].
    pose proof (tassign_noub p (pparams P s) v).
    destruct (tassign (pparams P s) p v) as [t| |]; [|cbn [fst snd]; split; auto; split; auto|congruence].
    unfold parameterProvider. cbn [c_prov c_sup c_cache c_help c_known]. rewrite B3. cbn [fst snd c_prov c_sup c_cache c_help c_known].
    rewrite HA. cbn [fst snd]. split; auto. split; [reflexivity|]. simpl. discriminate.
  - unfold chelp. rewrite L. cbn [fst snd]. rewrite B2. split; auto. split; auto.
  - cbn [fst snd]. split; auto. split; [reflexivity|]. simpl. discriminate.
Qed.
Lemma run_coherent ops : forall c s, coherent P c s -> Forall (plain P) ops -> accepted P s ops ->
  snd (crun P c ops) = snd (drun P s ops) /\ coherent P (fst (crun P c ops)) (fst (drun P s ops)).
Proof.
  induction ops as [|o ops IH]; intros c s H HP HA; [simpl; auto|].
  inversion HP; subst. cbn [accepted] in HA. destruct HA as [HA1 HA2].
  destruct (step_coherent c s o H H2) as [E1 E2]; [cbn [accepted]; auto|].
  destruct (IH _ _ E2 H3 HA2) as [F1 F2]. cbn [crun drun fst snd]. rewrite E1, F1. auto.
Qed.
Lemma coherent_supplied s : coherent P (cfg_supplied P (Some s)) s.
Proof. split; [reflexivity|]. simpl. discriminate. Qed.
Lemma coherent_set c s : coherent P (setParameterProvider P c (Some s)) s.
Proof. split; [reflexivity|]. simpl. discriminate. Qed.

Lemma config_transparent ops s : Forall (plain P) ops -> accepted P s ops ->
  snd (crun P (cfg_supplied P (Some s)) ops) = snd (drun P s ops).
Proof. intros. apply run_coherent; auto. apply coherent_supplied. Qed.
Lemma config_transparent_set c ops s : Forall (plain P) ops -> accepted P s ops ->
  snd (crun P (setParameterProvider P c (Some s)) ops) = snd (drun P s ops).
Proof. intros. apply run_coherent; auto. apply coherent_set. Qed.

(** tassign really puts the value *)
Lemma tassign_get p : forall r v t, sane r p -> tassign r p v = Ret t -> tvalue t p = Ret v.
Proof.
  induction p as [|a p IH]; intros r v t S E; [discriminate|]. cbn [tassign tvalue sane] in *. destruct S as [S1 S2].
  destruct (mfind TOstr a r) as [[s n]|] eqn:F; [|discriminate].
  destruct p as [|b p].
  - inversion E; subst. rewrite mfind_put by auto. destruct (keqb_spec TOstr a a); [|contradiction]. destruct v; auto.
  - destruct n as [r'|]; [|discriminate]. destruct (tassign r' (b :: p) v) as [r''| |] eqn:E2; try discriminate.
    cbn [obind] in E. inversion E; subst. rewrite mfind_put by auto. destruct (keqb_spec TOstr a a); [|contradiction].
    eapply IH; eauto.
Qed.

(** rejection: the written tree stays in the cache, and is what the next write sends *)
Lemma rejected_state c s p v t : coherent P c s -> tassign (pparams P s) p v = Ret t ->
  snd (psetp P s t) = false ->
  let c' := fst (csetValue P c p v) in
  snd (csetValue P c p v) = Throw /\ c_cache P c' = t /\ c_known P c' = true /\ c_prov P c' = Some (fst (psetp P s t)).
Proof.
  intros H E R. destruct (load_coherent c s H) as (c1 & L & H' & K).
  destruct H' as [A B]. destruct (B K) as (B1 & B2 & B3).
  unfold csetValue. rewrite L. cbn [fst snd]. rewrite B1, E. unfold parameterProvider.
  cbn [c_prov c_sup c_cache c_help c_known]. rewrite B3. cbn [fst snd c_prov c_sup c_cache c_help c_known].
  rewrite R. cbn [fst snd c_prov c_sup c_cache c_help c_known]. auto.
Qed.
Lemma rejected_read c s p v t : coherent P c s -> sane (pparams P s) p -> tassign (pparams P s) p v = Ret t ->
  snd (psetp P s t) = false ->
  snd (cstep P c (OWrite p v)) = AWrite Throw /\
  snd (cstep P (fst (cstep P c (OWrite p v))) (ORead p)) = ARead (Ret v).
Proof.
  intros H SN E R. destruct (rejected_state c s p v t H E R) as (A1 & A2 & A3 & A4).
  cbn [cstep fst snd]. rewrite A1. split; auto. unfold cvalue, load. rewrite A3. cbn [fst snd]. rewrite A2.
  f_equal. eapply tassign_get; eauto.
Qed.
Lemma rejected_resend c s p v t q w t' : coherent P c s -> tassign (pparams P s) p v = Ret t ->
  snd (psetp P s t) = false -> tassign t q w = Ret t' ->
  snd (cstep P (fst (cstep P c (OWrite p v))) (OWrite q w)) =
    AWrite (if snd (psetp P (fst (psetp P s t)) t') then Ret tt else Throw).
Proof.
  intros H E R E2. destruct (rejected_state c s p v t H E R) as (A1 & A2 & A3 & A4).
  cbn [cstep fst snd]. unfold csetValue at 1. unfold load. rewrite A3. cbn [fst snd]. rewrite A2, E2.
  unfold parameterProvider. cbn [c_prov c_sup c_cache c_help c_known]. rewrite A4.
  cbn [fst snd c_prov c_sup c_cache c_help c_known].
  destruct (snd (psetp P (fst (psetp P s t)) t')); auto.
Qed.
End F.

(** * Notified properties *)
Section PF.
Variables T W : Type.
Lemma notify_plain byref self fs v w :
  notify_prop T W byref self (map (plain_obs T W) fs) v (v, w) = Some (v, fold_left (fun w f => f v w) fs w).
Proof.
  revert w. induction fs as [|f fs IH]; intro w; simpl; auto.
  destruct byref; apply IH.
Qed.
Lemma set_plain byref fuel fs v s : fuel > 0 ->
  set_prop T W byref fuel (map (plain_obs T W) fs) v s = Some (v, fold_left (fun w f => f v w) fs (snd s)).
Proof. destruct fuel; [lia|]. intros _. cbn [set_prop]. apply notify_plain. Qed.
Lemma pobj_ok byref v0 w0 ops o : prun T W byref v0 w0 ops = Ret o ->
  wf (o_obs T W o) /\ o_obs T W o = live (o_trace T W o).
Proof.
  unfold prun. apply (ofold_inv (fun o => wf (o_obs T W o) /\ o_obs T W o = live (o_trace T W o))).
  - cbn [o_obs o_trace]. split; [split; simpl; auto; intros ? ? []|reflexivity].
  - intros s a s' [H1 H2] E. destruct a as [f|id|v]; cbn [pstep step fst snd] in E.
    + destruct (add (o_obs T W s) f) as [[m' id]| |] eqn:EA; try discriminate. cbn [obind fst snd] in E.
      inversion E; subst; clear E. cbn [o_obs o_trace]. destruct (add_spec _ _ _ _ H1 EA) as (W1 & W2 & W3).
      split; auto. rewrite live_app_add by auto. rewrite <- H2. auto.
    + cbn [obind fst snd] in E. inversion E; subst; clear E. cbn [o_obs o_trace]. split; [apply remove_wf; auto|].
      rewrite live_app_remove, <- H2. apply remove_spec. apply H1.
    + destruct (set_prop _ _ _ _ _ _ _); inversion E; subst; auto.
Qed.
Lemma set_notifies byref v0 w0 ops o v : prun T W byref v0 w0 ops = Ret o ->
  pstep T W byref o (PSet T W v) =
  Ret (mkPobj T W v (o_obs T W o) (o_trace T W o) (fold_left (fun w f => f v w) (map snd (live (o_trace T W o))) (o_world T W o))).
Proof.
  intro H. apply pobj_ok in H. destruct H as [_ H]. cbn [pstep]. rewrite set_plain by lia. cbn [fst snd]. rewrite <- H. auto.
Qed.
End PF.
