(** ExMore3.v - concrete cases for PropMore3.v. *)
From Coq Require Import List Arith Bool ZArith QArith Qcanon String Lia.
From Verif Require Import Base BaseFacts SMap SpModel SpSpec MapModel JacModel JacSpec VOps RkModel StepModel UtilModel OutModel DrvModel DrvSpec ObsModel ObsSpec CfgModel CfgSpec CfgFacts More3Spec MoreFacts3 MoreFacts4 ExCfg ExDrv.
Import ListNotations.
Local Open Scope string_scope.

(** A component with a nested set: its parameters are kept as they are written. *)
Definition nest : params := [("a", PV "1" None); ("solver", PV "rk4" (Some [("h", PV "0.1" None)]))].
Definition keeper : provider := mkProvider params (fun s => s) (fun _ => [("a", PV "number" None); ("solver", PV "" None)]) (fun _ t => (t, true)).
Lemma nest_proper : proper nest.
Proof.
  constructor.
  - split; [|split; [intros ? ? []|exact I]]. intros k v [E|[]]. inversion E; subst. reflexivity.
  - intros a s r' [E|[E|[]]]; inversion E; subst. constructor; [split; [intros ? ? []|exact I]|]. intros a s r' [E2|[]]. inversion E2.
Qed.
Lemma help_proper : proper (phelp keeper nest).
Proof.
  constructor; [|intros a s r' [E|[E|[]]]; inversion E]. split; [|split; [intros ? ? []|exact I]]. intros k v [E|[]]. inversion E; subst. reflexivity.
Qed.
(** the hypotheses of the four theorems hold here, and the answers are *)
Example C54_more_case : coherent keeper (cfg_supplied keeper (Some nest)) nest /\ proper (pparams keeper nest) /\ proper (phelp keeper nest) /\
  holds (pparams keeper nest) ["solver"; "h"] (PV "0.1" None) /\
  snd (crun keeper (cfg_supplied keeper (Some nest)) [ORead ["solver"; "h"]; OWrite ["solver"; "h"] (PV "0.2" None); ORead ["solver"]; ORead ["h"]; OHelp ["a"]; OHelp ["solver"]; OHelp ["x"]; OWrite ["solver"; "k"] (PV "0" None)]) =
    [ARead (Ret (PV "0.1" None)); AWrite (Ret tt); ARead (Ret (PV "rk4" (Some [("h", PV "0.2" None)]))); ARead Throw; AHelp (Ret "number"); AHelp (Ret "No help is available"); AHelp (Ret "No help is available"); AWrite Throw].
Proof.
  split; [apply coherent_supplied|]. split; [exact nest_proper|]. split; [exact help_proper|]. split; [|vm_compute; reflexivity].
  apply (holds_below _ _ "rk4" [("h", PV "0.1" None)]); [right; left; reflexivity|]. apply holds_here. left. reflexivity.
Qed.
Example C10_empty_case : match ObsModel.history [Add 7; Add 8; Remove 1%Z; Clear] with Ret (m, tr) => ObsModel.empty m = true /\ live tr = [] | _ => False end /\
  match ObsModel.history [Add 7; Add 8; Remove 1%Z] with Ret (m, tr) => ObsModel.empty m = false /\ live tr = [(2%Z, 8)] | _ => False end.
Proof. split; split; reflexivity. Qed.
Local Open Scope nat_scope.
(** F(x, y) = (2 x + y, y / 10): width 1 keeps the diagonal; threshold 1/3 keeps it and the element 1, threshold 3/4 drops the latter *)
Definition aff (x : list Qc) : list Qc := match x with [a; b] => [(qc 2 1 * a + b)%Qc; (qc 1 10 * b)%Qc] | _ => [] end.
Definition affm : vmapping QcNum := mkMap (N:=QcNum) 2 2 (fun x => match x with [a; b] => Ret (aff x) | _ => Throw end).
Definition affA (r c : nat) : Qc := match r, c with 0, 0 => qc 2 1 | 0, 1 => 1%Qc | 1, 1 => qc 1 10 | _, _ => 0%Qc end.
Lemma aff_computes : computes (N:=QcNum) affm aff 2 2 /\ affine 2 affA (fun _ => 0%Qc) aff.
Proof.
  split.
  - split; [reflexivity|]. split; [reflexivity|]. intros x L. destruct x as [|a [|b [|? ?]]]; try discriminate L. split; reflexivity.
  - intros x L. destruct x as [|a [|b [|? ?]]]; try discriminate L. cbn [aff map seq qsum nth affA]. f_equal; [ring|]. f_equal. ring.
Qed.
Definition shown (r : Outcome (smat QcNum)) : option (list (key * Q)) := match r with Ret J => Some (map (fun e => (fst e, this (snd e))) (sdat J)) | _ => None end.
Example C24_provider_case :
  shown (default_provider (N:=QcNum) (qc 1 2) (Some (trim_width (N:=QcNum) 1)) affm [1%Qc; 1%Qc]) = Some [((0, 0), (2 # 1)%Q); ((1, 1), (1 # 10)%Q)] /\
  shown (default_provider (N:=QcNum) (qc 1 2) (Some (trim_threshold (N:=QcNum) (qc 1 3))) affm [1%Qc; 1%Qc]) = Some [((0, 0), (2 # 1)%Q); ((0, 1), (1 # 1)%Q); ((1, 1), (1 # 10)%Q)] /\
  shown (default_provider (N:=QcNum) (qc 1 2) (Some (trim_threshold (N:=QcNum) (qc 3 4))) affm [1%Qc; 1%Qc]) = Some [((0, 0), (2 # 1)%Q); ((1, 1), (1 # 10)%Q)].
Proof. split; [|split]; vm_compute; reflexivity. Qed.
Example C52_outputs_set_case : exists s' e, solveOde (rk_solver no_events f_lin tab_euler 1 (qc 2 5)) true (collect true false true) (qc 1 1) 10 s_start = Some (s', e, Ret tt) /\ befores e = [0; 2] /\ afters e = [0; 2].
Proof. eexists. eexists. split; [vm_compute; reflexivity|]. split; reflexivity. Qed.
