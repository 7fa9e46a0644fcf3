(** ExRex.v - examples and refutations for C82. *)
From Coq Require Import List Arith Bool ZArith QArith Qcanon Lia.
From Verif Require Import Base BaseFacts VecModel VOps SMap SpModel SpSpec LUSpec LUModel LUFacts5 RkModel RkSpec StepModel RosModel RosSpec PropRos ExRos PropRex.
Import ListNotations.
Local Open Scope nat_scope.
(** the right-hand side of the spiral throws *)
Definition broken : rcfg unit := mkRcfg 0 2 (1%Qc) (fun _ _ _ => Throw) (fun _ _ _ w => Ret w) 0%Qc false (fun v => Ret (Qcabs (cmp_ v 0))) (fun h _ => (h, true, false)).
Definition failed : rst unit := fst (w1_step no_events broken w0).
Lemma failed_used : used failed.
Proof. eapply (used_w1_step w0 no_events broken failed AThrow); [apply used_w1_set, used_size, used_new|reflexivity|discriminate]. Qed.
Example C82_restart_solvable : solvable (q_ros (fst (q_init sc true (w1_set 0%Qc [q 1; q 2] false failed)))) (q_h failed * rc_d sc).
Proof.
  split.
  - apply (nonsing_check_ok 2 _ [[q 1; q 0]; [qc 2 3; q 1]] [[q 3; q (-2)]; [q 0; qc 13 3]]). vm_compute. reflexivity.
  - apply C42_pattern. apply sc_cover; vm_compute; reflexivity.
Qed.
Example C82_w1_restart_case : exists (s' : rst unit) (a : postarg QcNum), w1_step no_events sc (w1_set 0%Qc [q 1; q 2] false failed) = (s', AAccepted a) /\ pa_h a = q 2.
Proof. destruct (C82_w1_restart unit no_events sc spiral sc_safe failed 0%Qc [q 1; q 2] failed_used eq_refl ltac:(discriminate) C82_restart_solvable) as (s' & a & E & H & _). exists s', a. auto. Qed.
Example C82_w1_restart_value : showw (w1_step no_events sc (w1_set 0%Qc [q 1; q 2] false failed)) = ([(7 # 13)%Q; (4 # 13)%Q], 2%Q, true).
Proof. vm_compute. reflexivity. Qed.
Definition broken1 : rcfg unit := mkRcfg 0 1 (1%Qc) (fun _ _ _ => Throw) (fun _ _ _ w => Ret w) 0%Qc false (fun v => Ret (Qcabs (cmp_ v 0))) (fun h _ => (h, true, false)).
Definition failed1 : rst unit := fst (fst (sw_step no_events broken1 3 (s0 (qc 1 4)))).
Lemma failed1_used : used failed1.
Proof.
  eapply (used_sw_step (s0 (qc 1 4)) no_events broken1 3 failed1 [] (Some AThrow)); [|reflexivity|discriminate].
  eapply (used_sw_set (q_setStep (qc 1 4) (q_new tt)) dc 0%Qc [q 1] false _ (Ret tt)); [apply used_size, used_new|reflexivity|discriminate].
Qed.
Example C82_sw_restart_case : forall s' o, sw_attempt no_events dc true (fst (sw_set dc 0%Qc [q 1] false failed1)) = (s', o) -> o <> AThrow /\ o <> AUb.
Proof.
  apply (C82_sw_restart unit no_events dc decay dc_safe failed1 0%Qc [q 1] _ failed1_used eq_refl ltac:(discriminate) eq_refl).
  split; [|intros L U HL HU HP r c Hrc; exfalso; change (r < c < 1) in Hrc; lia]. apply (nonsing_check_ok 1 _ [[q 1]] [[qc 5 4]]). vm_compute. reflexivity.
Qed.
Example C82_sw_restart_value : showr (sw_step no_events dc 5 (fst (sw_set dc 0%Qc [q 1] false failed1))) = ([(39 # 50)%Q], (1 # 4)%Q, [(1 # 4)%Q], Some true).
Proof. vm_compute. reflexivity. Qed.
Example C82_throw_case : snd (w1_step no_events broken w0) = AThrow /\ snd (sw_attempt no_events broken1 true (s0 (qc 1 4))) = AThrow. Proof. split; reflexivity. Qed.
(** doStep cannot simply be called again after an exception. *)
Theorem C82_retry_refuted : ~ (forall (s s' : rst unit), used s -> w1_step no_events broken s = (s', AThrow) -> snd (w1_step no_events sc s') <> AUb).
Proof.
  intros H. destruct (C82_w1_retry unit no_events broken sc spiral tt (q 2) 0%Qc [q 1; q 2] sc_safe eq_refl eq_refl eq_refl) as (s1 & E & _ & _ & U).
  refine (H _ s1 _ E U). apply used_w1_set, used_size, used_new.
Qed.
Theorem C82_retry_sw_refuted : ~ (forall (s s' : rst unit) l, used s -> sw_step no_events broken1 3 s = (s', l, Some AThrow) -> snd (sw_step no_events dc 3 s') <> Some AUb).
Proof.
  intros H. destruct (C82_sw_retry unit no_events broken1 dc decay tt (qc 1 4) 0%Qc [q 1] 3 dc_safe eq_refl eq_refl eq_refl ltac:(lia)) as (s1 & E & _ & _ & U).
  refine (H _ s1 [] _ E U). eapply (used_sw_set (q_setStep (qc 1 4) (q_new tt)) broken1 0%Qc [q 1] false _ (Ret tt)); [apply used_size, used_new|reflexivity|discriminate].
Qed.
Print Assumptions C82_retry_refuted.
