(** PropMore3.v - further property theorems (C10, C24, C52, C54). *)
From Coq Require Import List Arith Bool ZArith QArith Qcanon String.
From Verif Require Import Base SMap SpModel SpSpec MapModel JacModel JacSpec VOps RkModel StepModel UtilModel OutModel DrvModel DrvSpec ObsModel ObsSpec CfgModel CfgSpec More3Spec MoreFacts3 MoreFacts4.
Import ListNotations.
Local Open Scope nat_scope.
Local Notation length := List.length (only parsing).

(** C54.  Reading through a configuration gives the value that stands at the path in the component's parameters, and throws exactly when there is none. *)
Theorem C54_read : forall (P : provider) (c : cfg P) s p, coherent P c s -> proper (pparams P s) ->
  (forall v, snd (cstep P c (ORead p)) = ARead (Ret v) <-> holds (pparams P s) p v) /\
  (snd (cstep P c (ORead p)) = ARead Throw <-> forall v, ~ holds (pparams P s) p v).
Proof. exact config_read. Qed.
Print Assumptions C54_read.
(** Help on a path: the text at that path in the component's help, or the fixed message if there is none or it is empty. *)
Theorem C54_help : forall (P : provider) (c : cfg P) s p, coherent P c s -> proper (phelp P s) ->
  (forall x n, holds (phelp P s) p (PV x n) -> x <> EmptyString -> snd (cstep P c (OHelp p)) = AHelp (Ret x)) /\
  ((forall x n, holds (phelp P s) p (PV x n) -> x = EmptyString) -> snd (cstep P c (OHelp p)) = AHelp (Ret "No help is available"%string)).
Proof. exact config_help. Qed.
Print Assumptions C54_help.
(** Writing at a path where nothing stands throws and changes nothing.  Otherwise the component is given its parameters with the value at the path replaced:
    what is below the path is what the value contains, the texts above the path are the same, everything elsewhere is unchanged. *)
Theorem C54_write : forall (P : provider) (c : cfg P) s p v, coherent P c s -> proper (pparams P s) ->
  ((forall u, ~ holds (pparams P s) p u) -> snd (cstep P c (OWrite p v)) = AWrite Throw /\ coherent P (fst (cstep P c (OWrite p v))) s) /\
  ((exists u, holds (pparams P s) p u) -> exists t,
     snd (cstep P c (OWrite p v)) = AWrite (if snd (psetp P s t) then Ret tt else Throw) /\ current P (fst (cstep P c (OWrite p v))) = Some (fst (psetp P s t)) /\
     holds t p v /\ (forall u, holds t p u -> u = v) /\
     (forall e u, e <> [] -> (holds t (p ++ e) u <-> exists x n, v = PV x (Some n) /\ holds n e u)) /\
     (forall q e x, p = q ++ e -> e <> [] -> ((exists n, holds t q (PV x n)) <-> exists n, holds (pparams P s) q (PV x n))) /\
     (forall q u, ~ below p q -> ~ below q p -> (holds t q u <-> holds (pparams P s) q u)) /\
     ((forall x n, v = PV x (Some n) -> proper n) -> proper t)).
Proof. exact config_write. Qed.
Print Assumptions C54_write.
(** A default-constructed configuration has no component: reading and writing throw, there is no help, nothing changes. *)
Theorem C54_default : forall (P : provider) p v,
  snd (cstep P (cfg_default P) (ORead p)) = ARead Throw /\ snd (cstep P (cfg_default P) (OWrite p v)) = AWrite Throw /\
  snd (cstep P (cfg_default P) (OHelp p)) = AHelp (Ret "No help is available"%string) /\
  fst (cstep P (cfg_default P) (ORead p)) = cfg_default P /\ fst (cstep P (cfg_default P) (OWrite p v)) = cfg_default P /\ fst (cstep P (cfg_default P) (OHelp p)) = cfg_default P.
Proof. exact config_default. Qed.
Print Assumptions C54_default.
(** C10.  A list of observers says it is empty iff no subscription is live, after every history. *)
Theorem C10_empty : forall (T : Type) ops (m : ObsModel.elements T) tr, ObsModel.history ops = Ret (m, tr) -> (ObsModel.empty m = true <-> live tr = []).
Proof. exact empty_iff. Qed.
Print Assumptions C10_empty.
(** C24.  Both providers of Jacobians, given a trimmer: on an affine mapping exactly the nonzero elements that the trimmer keeps are stored, with their values. *)
Theorem C24_provider_width : forall n A b F (g : vmapping QcNum) (x0 : list Qc) (dx : Qc) (width : Z),
  computes g F n n -> affine n A b F -> length x0 = n -> dx <> 0%Qc -> (0 <= width < 2 ^ 31)%Z -> (Z.of_nat n < 2 ^ 31)%Z ->
  exists J, default_provider (N:=QcNum) dx (Some (trim_width (N:=QcNum) width)) g x0 = Ret J /\
    (forall p, exists p' log, sp_compute (N:=QcNum) dx (Some (trim_width (N:=QcNum) width)) g x0 p = Ret (p', log) /\ spJ p' = J) /\
    fast J = true /\ ssz J = (n, n) /\
    forall r c x, sfind J (r, c) = Some x <-> r < n /\ c < n /\ x = A r c /\ A r c <> 0%Qc /\ (width = 0%Z \/ (Z.abs (Z.of_nat r - Z.of_nat c) < width)%Z).
Proof. exact provider_width. Qed.
Print Assumptions C24_provider_width.
(** The same with the threshold trimmer. *)
Theorem C24_provider_threshold : forall n A b F (g : vmapping QcNum) (x0 : list Qc) (dx : Qc) (thr : Qc),
  computes g F n n -> affine n A b F -> length x0 = n -> dx <> 0%Qc ->
  exists J, default_provider (N:=QcNum) dx (Some (trim_threshold (N:=QcNum) thr)) g x0 = Ret J /\
    (forall p, exists p' log, sp_compute (N:=QcNum) dx (Some (trim_threshold (N:=QcNum) thr)) g x0 p = Ret (p', log) /\ spJ p' = J) /\
    fast J = true /\ ssz J = (n, n) /\
    forall r c x, sfind J (r, c) = Some x <-> r < n /\ c < n /\ x = A r c /\ A r c <> 0%Qc /\
      (r = c \/ forall i j, i < n -> j < n -> A i j <> 0%Qc -> (thr * Qcabs (A i j) <= Qcabs (A r c))%Qc).
Proof. exact provider_threshold. Qed.
Print Assumptions C24_provider_threshold.
(** C52.  The outputs told before and after an integration are those that are set: statistics (0), console (1), file (2), in this order. *)
Theorem C52_outputs_set : forall (S : Type) (sv : odesolver S) (stats con file : bool) (D : Qc) (fuel : nat) (s s' : S) (e : list oevent), solveOde sv true (collect stats con file) D fuel s = Some (s', e, Ret tt) ->
  befores e = afters e /\
  (In 0 (befores e) <-> stats = true) /\ (In 1 (befores e) <-> con = true) /\ (In 2 (befores e) <-> file = true) /\
  (forall i j, i < j -> j < length (befores e) -> nth i (befores e) 0 < nth j (befores e) 0).
Proof. exact outputs_set. Qed.
Print Assumptions C52_outputs_set.
