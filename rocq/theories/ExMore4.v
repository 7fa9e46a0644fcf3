(** ExMore4.v - concrete cases for PropMore4.v. *)
From Coq Require Import List Arith Bool ZArith QArith Qcanon String Lia.
From Verif Require Import Base BaseFacts SMap SpModel SpSpec MapModel JacModel VOps LUModel LUSpec LUFacts5 NewtModel NewtSpec RkModel StepModel EvModel EvSpec RosModel RosSpec LexModel ParModel InitModel ExNewt ExInit PropInit CjSpec PropMore4.
From Verif Require ExRex ExEv.
Import ListNotations.
Local Open Scope nat_scope.
(** x^2 - 2: two directions with the Jacobian at 3, then one with the Jacobian at 2 *)
Definition hcj : list dcall := [(false, g2, ql [3]%Z, ql [7]%Z); (false, g2, ql [2]%Z, ql [2]%Z); (true, g2, ql [2]%Z, ql [2]%Z)].
Lemma g2_usable b (x f : Qc) (J : smat QcNum) (a : Qc) : default_provider (N:=QcNum) (qf 1 2) None g2 [x] = Ret J -> sdat J = [((0, 0), a)] -> this a <> 0%Q -> usable (qf 1 2) None 1 (b, g2, [x], [f]).
Proof.
  intros EJ E NZ. split; [reflexivity|]. exists J. split; [exact EJ|]. rewrite E. split; [constructor; [intros []|constructor]|]. split; [|split].
  - split.
    + intros r c (v & [Q|[]]). injection Q as <- <- _. split; lia.
    + intros i Hi. assert (i = 0) as -> by lia. split; exists 0; (split; [|lia]); exists a; left; reflexivity.
  - intros [|[|k]] Hk y H c Hc; try lia. assert (c = 0) as -> by lia. specialize (H 0 ltac:(lia)). cbn in H.
    assert (M : (a * y 0%nat = 0)%Qc) by (rewrite <- H; ring). apply Qcmult_integral in M. destruct M as [M|M]; [subst a; destruct NZ; reflexivity|exact M].
  - apply full_covers. intros r c Hr Hc. assert (r = 0) as -> by lia. assert (c = 0) as -> by lia. exists a. left. reflexivity.
Qed.
Example C28_const_usable_case : const_usable (qf 1 2) None 1 None hcj.
Proof.
  cbn [const_usable hcj snd fst const_ref]. split; [reflexivity|]. split.
  { intros _. eapply g2_usable; [reflexivity|reflexivity|]. vm_compute. discriminate. }
  split; [reflexivity|]. split; [intros [Q|Q]; discriminate Q|]. split; [reflexivity|]. split; [|exact I].
  intros _. eapply g2_usable; [reflexivity|reflexivity|]. vm_compute. discriminate.
Qed.
Example C28_const_value : match const_hist (qf 1 2) None hcj lu_empty with Ret (ds, _) => Some (map tq ds) | _ => None end = Some [[(-14 # 13)%Q]; [(-4 # 13)%Q]; [(-4 # 9)%Q]].
Proof. vm_compute. reflexivity. Qed.
Definition ddc := const_dd (qf 1 2) None g2.
Definition showG (o : Outcome (perf QcNum (S:=LUModel.lu) * list (event QcNum) * nstatus)) : option (list (list Q) * nstatus) :=
  match o with Ret (p, l, st) => Some (map tq (guesses l), st) | _ => None end.
(** x^2 = 2 from 3 in two iterations, twice with a constant Jacobian, and once with a new one in each iteration *)
Example C28_again_case : showG (nrun (plain_comps ddc lit 5 g2) 2 (pf_guess ddc (ql [3]%Z) true fresh)) = Some ([zq [3]%Z], NLimit) /\ showG (nrun (plain_comps dd2 lit 5 g2) 2 (pf_guess dd2 (ql [3]%Z) true fresh)) = Some ([], NLimit).
Proof. split; vm_compute; reflexivity. Qed.
Example C33_recompute_case : map (fun fl => recomputed fl) [0; 1; 2; 3; 4; 5; 6; 7; 8]%Z = [false; false; false; false; true; true; true; true; false]. Proof. reflexivity. Qed.
Example C33_interface_reset_case : exists c', ev_start (linear_events ExEv.m3) (ql [2; 0]%Z) (q 1) (ev_reset (linear_events ExEv.m3) (ExEv.c0, 0)) = Ret (c', 0) /\ sized ExEv.m3 c' 3 /\ c_t1 c' = q 1.
Proof.
  destruct (C33_interface_reset nat ExEv.m3 3 0 (ql [2; 0]%Z) (q 1) ExEv.c0 _ ltac:(lia) eq_refl eq_refl eq_refl eq_refl) as (c' & A & B & _ & C & _). exists c'. auto.
Qed.
(** a text that is no number *)
Example C51_texts_case : IsNumber (c_str "1.5.5") = false /\ snd (is_set 0%Z zread [("time"%string, mkV "abc" None)] (mkIst 9%Z [1; 2]%Z)) = Throw /\ IsNumber (c_str "-5") = true.
Proof. split; [reflexivity|]. split; vm_compute; reflexivity. Qed.
Example C82_soft_case : snd (sw_set ExRos.dc 0%Qc [ExRos.q 1] true (fst (fst (sw_step no_events ExRex.broken1 3 (fst (sw_set ExRex.broken1 0%Qc [ExRos.q 1] false (q_setStep (ExRos.q 1) (q_new tt)))))))) = Ret tt.
Proof. apply (C82_soft_after_throw unit no_events ExRex.broken1 ExRos.dc tt (ExRos.q 1) 0%Qc 0%Qc [ExRos.q 1] [ExRos.q 1] _ 3 eq_refl ltac:(lia) eq_refl eq_refl). Qed.
