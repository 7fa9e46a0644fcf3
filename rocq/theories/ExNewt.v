(** ExNewt.v - concrete cases meeting the hypotheses of the theorems in PropNewt.v, and refutations. *)
From Coq Require Import List Arith QArith Qcanon Lia ZArith.
From Verif Require Import Base BaseFacts SMap SpModel SpSpec MapModel JacModel JacSpec VOps LUModel LUSpec LUFacts5 NewtModel NewtSpec NewtFacts2.
Import ListNotations.
Local Open Scope nat_scope.

Definition q (z : Z) : Qc := Q2Qc (inject_Z z).
Definition qf (a : Z) (b : positive) : Qc := Q2Qc (a # b).
Definition ql (l : list Z) : list Qc := map q l.
Definition tq (l : list Qc) : list Q := map this l.
Definition zq (l : list Z) : list Q := map inject_Z l.
(** The literals of lineSearch. *)
Definition lit : ls_lit QcNum := mkLit (N:=QcNum) (qf 4 5) (qf 1 2) (q (-1)).
Example lit_ok : ls_order lit. Proof. apply qc_ls_order. intros H. discriminate H. Qed.
(** f(x) = x^2 - 2 *)
Definition g2 : vmapping QcNum := mkMap (N:=QcNum) 1 1 (fun x => Ret (map (fun v => (v * v - q 2)%Qc) x)).
Definition showLS (o : Outcome (Qc * list Qc * list (Qc * Qc))) : option (Q * list Q * nat) :=
  match o with Ret (a, r, l) => Some (this a, tq r, length l) | _ => None end.
(** From 3 along -8: full step -5 and half -1: f = 23, -1: ratio 1/49 accepted at the second trial. *)
Example ls_halved : showLS (lineSearch lit 5 g2 (ql [-8]%Z) (ql [3]%Z) (ql [7]%Z) (ql [7]%Z)) = Some (1 # 2, zq [-1]%Z, 2).
Proof. reflexivity. Qed.
(** Wrong direction: all forward trials fail, reverse is used. *)
Example ls_reverse : showLS (lineSearch lit 3 g2 (ql [2]%Z) (ql [3]%Z) (ql [7]%Z) (ql [7]%Z)) = Some (-1 # 1, zq [-1]%Z, 4).
Proof. reflexivity. Qed.
(** At a minimum of |f| no trial improves. *)
Definition g3 : vmapping QcNum := mkMap (N:=QcNum) 1 1 (fun x => Ret (map (fun v => (v * v + q 2)%Qc) x)).
Example ls_none : showLS (lineSearch lit 3 g3 (ql [2]%Z) (ql [0]%Z) (ql [2]%Z) (ql [2]%Z)) = Some (0%Q, zq [2]%Z, 6).
Proof. reflexivity. Qed.

(** * Iteration performer *)
Definition est0 : sest QcNum := mkEst (N:=QcNum) (qf 1 1000000) (qf 1 1000000) (q 100000000000000000000) (q 10) [] 0%Qc 0%Qc.
Definition fresh : perf QcNum (S:=LUModel.lu) := mkPerf (N:=QcNum) [] [] false 1%Qc est0 lu_empty.
Definition dd2 := simple_dd (qf 1 2) None g2.
Definition showP (o : Outcome (perf QcNum (S:=LUModel.lu))) : option (list Q * list Q) := match o with Ret p => Some (tq (p_x p), tq (p_f p)) | _ => None end.
Example hist_case : showP (pf_hist dd2 lit 5 g2 [CGuess (N:=QcNum) (ql [3]%Z) true; CResidual; CIter 0; CIter 1] fresh) = Some ([(2251 # 1469)%Q], [(751079 # 2157961)%Q]).
Proof. vm_compute. reflexivity. Qed.
Example fresh_ok : p_valid fresh = false /\ e_cur (p_est fresh) = p_x fresh. Proof. split; reflexivity. Qed.

(** The residual does not follow a change of the mapping: after setMapping without setInitialGuess the old residual is used. *)
Theorem C26_mapping_changed_refuted :
  ~ (forall (p : perf QcNum (S:=LUModel.lu)) g g' f p1 f' p2, p_valid p = false -> pf_residual g p = Ret (f, p1) -> pf_residual g' p1 = Ret (f', p2) -> mapf g' (p_x p2) = Ret f').
Proof.
  intros H. specialize (H (mkPerf (N:=QcNum) (ql [3]%Z) [] false 1%Qc est0 lu_empty) g2 g3 _ _ _ _ eq_refl eq_refl eq_refl). cbn [mapf g3 p_x map ql] in H.
  injection H as H. discriminate H.
Qed.
Print Assumptions C26_mapping_changed_refuted.
(** A NaN direction (as a singular Jacobian gives): the step ratio is 0 and the residual is kept, but the iterate becomes NaN (x + NaN*0). *)
Definition gid : vmapping NanNum := mkMap (N:=NanNum) 1 1 (fun x => Ret x).
Definition ddnan : ddir NanNum unit := mkDD (N:=NanNum) (fun _ s => s) (fun _ => false) (fun _ _ _ s => Ret ([None], s)) (fun _ s => s).
Definition litn : ls_lit NanNum := mkLit (N:=NanNum) (Some (qf 4 5)) (Some (qf 1 2)) (Some (q (-1))).
Definition estn : sest NanNum := mkEst (N:=NanNum) (Some 0%Qc) (Some 0%Qc) (Some (q 100)) (Some (q 10)) [Some 1%Qc] (Some 0%Qc) (Some 0%Qc).
Definition nan_start : perf NanNum (S:=unit) := mkPerf (N:=NanNum) [Some 1%Qc] [] false (Some 1%Qc) estn tt.
Lemma show_ret {A B} (s : A -> B) (o : Outcome A) y : match o with Ret x => Some (s x) | _ => None end = Some y -> exists x, o = Ret x /\ s x = y.
Proof. destruct o; intros E; try discriminate E. injection E as E. eauto. Qed.
Definition nan_show (r : perf NanNum (S:=unit) * estatus) : list (option Q) * list (option Q) * option Q :=
  (map (option_map this) (p_x (fst r)), map (option_map this) (p_f (fst r)), option_map this (p_ratio (fst r))).
Definition nan_iter := pf_iteration ddnan litn 3 gid 0 nan_start.
Lemma nan_case : match nan_iter with Ret r => Some (nan_show r) | _ => None end = Some ([None], [Some 1%Q], Some 0%Q).
Proof. vm_compute. reflexivity. Qed.
Theorem C26_nan_direction_refuted : exists q st, nan_iter = Ret (q, st) /\ p_valid nan_start = false /\ e_cur (p_est nan_start) = p_x nan_start /\
  option_map this (p_ratio q) = Some 0%Q /\ p_x q = [None] /\ mapf gid (p_x q) <> Ret (p_f q).
Proof.
  destruct (show_ret nan_show nan_iter _ nan_case) as [[p st] [E S]]. exists p, st. split; [exact E|]. split; [reflexivity|]. split; [reflexivity|].
  unfold nan_show in S. cbn [fst] in S. injection S as S1 S2 S3. split; [exact S3|].
  assert (X : p_x p = [None]). { destruct (p_x p) as [|[v|] [|]]; try discriminate S1. reflexivity. }
  split; [exact X|]. rewrite X. cbn [mapf gid]. intros H. injection H as H. rewrite <- H in S2. discriminate S2.
Qed.
Print Assumptions C26_nan_direction_refuted.

(** * run *)
(** Newton's method for x^2 = 2 from 3. *)
Definition showR (o : Outcome (perf QcNum (S:=LUModel.lu) * list (event QcNum) * nstatus)) : option (list Q * nat * nstatus) :=
  match o with Ret (p, l, st) => Some (tq (p_x p), length (iter_numbers l), st) | _ => None end.
Example run_case : showR (nrun (plain_comps dd2 lit 5 g2) 2 (pf_guess dd2 (ql [3]%Z) true fresh)) = Some ([(2251 # 1469)%Q], 2, NLimit).
Proof. vm_compute. reflexivity. Qed.
(** Scripted components: statuses from a list, observers asking to stop at a given call. *)
Definition script (sts : list estatus) (stop : nat) (help : bool) : comps QcNum nat :=
  mkComps (N:=QcNum) (fun _ s => Ret (S s, nth s sts EContinue)) (fun n s => Ret (s, Nat.eqb n stop)) (fun s => Ret (s, false))
    (fun _ s => s) (fun _ => help) (fun _ s => Ret s) (fun s => Ret s) (fun _ => ql [7]%Z).
Example run_restart : nrun (script [EDiverged; EContinue; EConverged] 9 true) 5 0
  = Ret (3, [EvIter 0 EDiverged; EvObs 0 false; EvAdjust false; EvReport false; EvGuess (N:=QcNum) (ql [7]%Z);
             EvIter 0 EContinue; EvObs 1 false; EvAdjust false; EvIter 1 EConverged; EvObs 2 false; EvAdjust false; EvReport true], NConverged).
Proof. reflexivity. Qed.
Example run_diverged : exists l, nrun (script [EDiverged; EDiverged] 9 true) 5 0 = Ret (2, l, NDiverged). Proof. eexists. reflexivity. Qed.
Example run_stopped : exists l, nrun (script [EContinue; EContinue] 1 true) 5 0 = Ret (2, l, NTerminated). Proof. eexists. reflexivity. Qed.
(** Divergence is not reported as Diverged when a hard reset may not help (SimpleNewtonDescentDirection with the default
    Jacobian provider): one iteration was made, the limit is 5, and the result is IterationCountLimitExceeded. *)
Theorem C27_divergence_reported_refuted :
  ~ (forall (S : Type) (c : comps QcNum S) limit s s' log st, nrun c limit s = Ret (s', log, st) -> st = NLimit -> length (iter_numbers log) >= limit).
Proof.
  intros H. specialize (H nat (script [EDiverged] 9 false) 5 0 1 _ NLimit eq_refl eq_refl). vm_compute in H. lia.
Qed.
Print Assumptions C27_divergence_reported_refuted.
(** ... and failure is reported twice to the descent direction. *)
Theorem C27_reported_once_refuted :
  ~ (forall (S : Type) (c : comps QcNum S) limit s s' log st, nrun c limit s = Ret (s', log, st) -> length (successes log) <= 1).
Proof.
  intros H. specialize (H nat (script [EDiverged] 9 false) 5 0 1 _ NLimit eq_refl). vm_compute in H. lia.
Qed.
Print Assumptions C27_reported_once_refuted.

(** * Affine system: 2 x0 + x1 = 4, x0 + 3 x1 = 7 *)
Definition Fa (x : list Qc) : list Qc := let v i := nth i x 0%Qc in [(q (-4) + (q 2 * v 0%nat + q 1 * v 1%nat))%Qc; (q (-7) + (q 1 * v 0%nat + q 3 * v 1%nat))%Qc].
Definition ga : vmapping QcNum := mkMap (N:=QcNum) 2 2 (fun x => Ret (Fa x)).
Definition Aa (r c : nat) : Qc := q (nth c (nth r [[2; 1]; [1; 3]] [])%Z 0%Z).
Definition ba (r : nat) : Qc := q (nth r [-4; -7] 0)%Z.
Example ga_computes : computes (N:=QcNum) ga Fa 2 2. Proof. split; [reflexivity|]. split; [reflexivity|]. intros x L. split; reflexivity. Qed.
Example ga_affine : affine 2 Aa ba Fa.
Proof.
  intros x L. unfold Fa. cbn [map seq]. unfold qsum, Aa, ba. cbn [forn nth seq fold_left].
  repeat (apply (f_equal2 (@cons Qc)); [ring|]). reflexivity.
Qed.
Definition La : list (list Qc) := [[q 1; q 0]; [qf 1 2; q 1]].
Definition Ua : list (list Qc) := [[q 2; q 1]; [q 0; qf 5 2]].
Example ga_solvable : solvable_pattern 2 Aa.
Proof.
  assert (NZ : forall r c, r < 2 -> c < 2 -> Aa r c <> 0%Qc).
  { intros r c Hr Hc E. apply (f_equal (fun x : Qc => Qnum (this x))) in E. destruct r as [|[|]], c as [|[|]]; try lia; lazy in E; discriminate. }
  split; [apply (nonsing_check_ok 2 Aa La Ua); vm_compute; reflexivity|]. split.
  - intros i Hi. split; exists i; (split; [lia|apply NZ; lia]).
  - intros r c Hrc _. exists c. split; [lia|]. apply NZ; lia.
Qed.
Definition dda := simple_dd (qf 1 2) None ga.
Example affine_case : showR (nrun (plain_comps dda lit 5 ga) 10 (pf_guess dda (ql [3; 5]%Z) true fresh)) = Some (zq [1; 2]%Z, 2, NConverged).
Proof. vm_compute. reflexivity. Qed.
(** Two different guesses one after another reuse the factorizer. *)
Definition dirs := simple_hist (qf 1 2) None [(true, ga, ql [3; 5]%Z, ql [7; 11]%Z); (false, ga, ql [0; 0]%Z, ql [-4; -7]%Z)] lu_empty.
Example direction_case : match dirs with Ret r => Some (map tq (fst r)) | _ => None end = Some [zq [-2; -3]%Z; zq [1; 2]%Z].
Proof. vm_compute. reflexivity. Qed.
(** f(x) = x - 100 from 1: the first iteration finds the root 100 exactly, but the relative change 99 exceeds the
    threshold 10; the run ends with IterationCountLimitExceeded after one iteration. *)
Definition gf : vmapping QcNum := mkMap (N:=QcNum) 1 1 (fun x => Ret [(q (-100) + q 1 * nth 0%nat x 0)%Qc]).
Definition ddf := simple_dd (qf 1 2) None gf.
Definition far_run := nrun (plain_comps ddf lit 5 gf) 10 (pf_guess ddf (ql [1]%Z) true fresh).
Example far_show : showR far_run = Some (zq [100]%Z, 1, NLimit). Proof. vm_compute. reflexivity. Qed.
Theorem C28_far_root_refuted : exists p log, far_run = Ret (p, log, NLimit) /\ tq (p_x p) = [100%Q].
Proof.
  pose proof far_show as E. destruct far_run as [[[p l] st]| |]; simpl in E; try discriminate E. exists p, l. injection E as E1 _ E3. subst st. split; [reflexivity|exact E1].
Qed.
Print Assumptions C28_far_root_refuted.
