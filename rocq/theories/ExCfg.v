(** ExCfg.v - concrete cases for PropCfg.v and refutations. *)
From Coq Require Import List Arith Bool String ZArith.
Require Import Verif.Base Verif.SMap Verif.ObsModel Verif.ObsSpec Verif.CfgModel Verif.CfgSpec Verif.CfgFacts Verif.PropCfg.
Import ListNotations.
Local Open Scope string_scope.

(** A component with two text parameters "a" and "b"; it rejects "bad" for "a" (before changing anything). *)
Definition dom_params (s : string * string) : params := [("a", PV (fst s) None); ("b", PV (snd s) None)].
Definition text_of (r : params) (k d : string) : string :=
  match mfind TOstr k r with Some (PV t _) => t | None => d end.
Definition demo : provider :=
  mkProvider (string * string) dom_params (fun _ => [("a", PV "help on a" None)])
    (fun s r => if String.eqb (text_of r "a" "") "bad" then (s, false)
                else ((text_of r "a" (fst s), text_of r "b" (snd s)), true)).
Definition s0 : pstate demo := ("x", "y").
Definition ops1 : list (cop demo) :=
  [ORead ["a"]; OWrite ["a"] (PV "z" None); OHelp ["a"]; OHelp ["b"]; ORead ["a"]; OWrite ["c"] (PV "1" None); @OProv demo (Some (("p", "q") : pstate demo)); ORead ["b"]].
Example ops1_plain : Forall (plain demo) ops1 /\ accepted demo s0 ops1.
Proof. split; [repeat constructor|]. repeat split. Qed.
Example ops1_answers : snd (crun demo (cfg_supplied demo (Some s0)) ops1) =
  [ARead (Ret (PV "x" None)); AWrite (Ret tt); AHelp (Ret "help on a"); AHelp (Ret "No help is available");
   ARead (Ret (PV "z" None)); AWrite Throw; ANone; ARead (Ret (PV "q" None))].
Proof. reflexivity. Qed.
(** rejection: "bad" stays visible, and the innocent write to "b" is rejected too *)
Example rejected_hyps : coherent demo (cfg_supplied demo (Some s0)) s0 /\ sane (pparams demo s0) ["a"] /\
  exists t, tassign (pparams demo s0) ["a"] (PV "bad" None) = Ret t /\ snd (psetp demo s0 t) = false.
Proof.
  split; [apply coherent_supplied|]. split; [|eexists; split; reflexivity].
  split; [|reflexivity || exact I]. split; [|split; [intros ? ? []|exact I]].
  intros k v [E|[]]. inversion E; subst. reflexivity.
Qed.
Theorem C54_read_reflects_component_refuted :
  ~ (forall (P : provider) ops s, Forall (plain P) ops ->
       snd (crun P (cfg_supplied P (Some s)) ops) = snd (drun P s ops)).
Proof.
  intro H. specialize (H demo [OWrite ["a"] (PV "bad" None); ORead ["a"]; OWrite ["b"] (PV "w" None)] s0).
  assert (F : Forall (plain demo) [OWrite ["a"] (PV "bad" None); ORead ["a"]; OWrite ["b"] (PV "w" None)]) by (repeat constructor).
  specialize (H F). vm_compute in H. discriminate.
Qed.
(** A component changed behind the back of the configuration: reads are stale. *)
Theorem C54_external_change_refuted :
  ~ (forall (P : provider) s s' p, snd (crun P (cfg_supplied P (Some s)) [ORead p; OExt s'; ORead p]) =
       snd (drun P s [ORead p; OExt s'; ORead p])).
Proof. intro H. specialize (H demo s0 (("new", "y") : pstate demo) ["a"]). vm_compute in H. discriminate. Qed.
(** Detaching the component (null provider) with a supplier that has nothing to offer: reads still answer from the
    old component, and a write dereferences null. *)
Theorem C54_detached_write_refuted :
  ~ (forall (P : provider) c p v, snd (csetValue P c p v) <> UB).
Proof.
  intro H.
  apply (H demo (fst (crun demo (cfg_supplied demo None) [OProv (Some s0); ORead ["a"]; OProv None; ORead ["a"]])) ["a"] (PV "z" None)).
  reflexivity.
Qed.
Example detached_read : snd (crun demo (cfg_supplied demo None) [OProv (Some s0); ORead ["a"]; OProv None; ORead ["a"]]) =
  [ANone; ARead (Ret (PV "x" None)); ANone; ARead (Ret (PV "x" None))].
Proof. reflexivity. Qed.

(** Notified property: two observers logging what they see, one unsubscribed again. *)
Definition log (n : nat) : nat -> list (nat * nat) -> list (nat * nat) := fun v w => (w ++ [(n, v)])%list.
Example prop_ex :
  match prun nat (list (nat * nat)) true 0 []
    [PAdd _ _ (log 1); PAdd _ _ (log 2); PSet _ _ 5; PRemove _ _ 1%Z; PSet _ _ 6] with
  | Ret o => o_val _ _ o = 6 /\ o_world _ _ o = [(1, 5); (2, 5); (2, 6)]
  | _ => False
  end.
Proof. vm_compute. split; reflexivity. Qed.
(** An observer that corrects the value by setting it again: with a by-value property the observers after it are
    told the old value last, so what they saw last is not the value of the property. *)
Definition clamp : pobserver nat (list nat) := fun self v s => if Nat.ltb 5 v then self 5 s else Some s.
Definition watcher : pobserver nat (list nat) := fun _ v s => Some (fst s, v :: snd s).
Theorem C55_last_notification_is_current_refuted :
  ~ (forall fuel obs v s s', set_prop nat (list nat) false fuel (obs ++ [watcher]) v s = Some s' ->
       hd 0 (snd s') = fst s').
Proof. intro H. specialize (H 3 [clamp] 7 (0, []) _ eq_refl). discriminate. Qed.
(** Two observers that keep correcting each other never terminate: no nesting depth suffices. *)
Definition up : pobserver nat (list nat) := fun self v s => self (S v) s.
Theorem C55_reentrant_set_terminates_refuted : forall fuel v s, set_prop nat (list nat) true fuel [up] v s = None.
Proof. induction fuel; intros v s; simpl; auto. unfold up at 1. rewrite IHfuel. auto. Qed.
