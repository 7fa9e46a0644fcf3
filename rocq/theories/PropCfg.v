(** PropCfg.v - properties C54 (configuration facade) and C55 (notified properties).
    Vocabulary: CfgSpec.v, ObsSpec.v. *)
From Coq Require Import List Bool String ZArith.
Require Import Verif.Base Verif.SMap Verif.ObsModel Verif.ObsSpec Verif.CfgModel Verif.CfgSpec Verif.CfgFacts.
Import ListNotations.

(** ** C54 *)
(** As long as the component accepts what is written, and is changed only through the configuration, the
    configuration answers every history exactly as the component itself would. *)
Theorem C54_transparent : forall (P : provider) ops s, Forall (plain P) ops -> accepted P s ops ->
  snd (crun P (cfg_supplied P (Some s)) ops) = snd (drun P s ops).
Proof. exact config_transparent. Qed.
Print Assumptions C54_transparent.

(** The same from the moment a component is set, whatever happened before (rejections included). *)
Theorem C54_transparent_after_set : forall (P : provider) c ops s, Forall (plain P) ops -> accepted P s ops ->
  snd (crun P (setParameterProvider P c (Some s)) ops) = snd (drun P s ops).
Proof. exact config_transparent_set. Qed.
Print Assumptions C54_transparent_after_set.

(** A rejected value stays visible in the configuration ... *)
Theorem C54_rejected_value_stays : forall (P : provider) c s p v t, coherent P c s -> sane (pparams P s) p ->
  tassign (pparams P s) p v = Ret t -> snd (psetp P s t) = false ->
  snd (cstep P c (OWrite p v)) = AWrite Throw /\
  snd (cstep P (fst (cstep P c (OWrite p v))) (ORead p)) = ARead (Ret v).
Proof. exact rejected_read. Qed.
Print Assumptions C54_rejected_value_stays.

(** ... and is sent again with the next write to any other path. *)
Theorem C54_rejected_value_resent : forall (P : provider) c s p v t q w t', coherent P c s ->
  tassign (pparams P s) p v = Ret t -> snd (psetp P s t) = false -> tassign t q w = Ret t' ->
  snd (cstep P (fst (cstep P c (OWrite p v))) (OWrite q w)) =
    AWrite (if snd (psetp P (fst (psetp P s t)) t') then Ret tt else Throw).
Proof. exact rejected_resend. Qed.
Print Assumptions C54_rejected_value_resent.

(** ** C55 *)
(** After any history of subscriptions, unsubscriptions and sets: setting stores the value and calls every live
    observer exactly once, in order, with the new value. *)
Theorem C55_set_notifies_once : forall (T W : Type) byref v0 w0 ops o v, prun T W byref v0 w0 ops = Ret o ->
  pstep T W byref o (PSet T W v) =
  Ret (mkPobj T W v (o_obs T W o) (o_trace T W o)
        (fold_left (fun w f => f v w) (map snd (live (o_trace T W o))) (o_world T W o))).
Proof. exact set_notifies. Qed.
Print Assumptions C55_set_notifies_once.
