(** CfgSpec.v - what a client of a configuration expects: the same answers as from the component itself. *)
From Coq Require Import List Arith Bool String.
Require Import Verif.Base Verif.SMap Verif.CfgModel.
Import ListNotations.

Section S.
Variable P : provider.
(** The direct machine has no cache: its only state is the state of the component. *)
Definition dstep (s : pstate P) (o : cop P) : pstate P * answer :=
  match o with
  | ORead p => (s, ARead (tvalue (pparams P s) p))
  | OWrite p v =>
      match tassign (pparams P s) p v with
      | Ret t => let r := psetp P s t in (fst r, AWrite (if snd r then Ret tt else Throw))
      | Throw => (s, AWrite Throw) | UB => (s, AWrite UB)
      end
  | OHelp p => (s, AHelp (Ret (help_text (phelp P s) p)))
  | OProv (Some s') => (s', ANone)
  | OProv None => (s, ANone)
  | OExt s' => (s', ANone)
  end.
Fixpoint drun (s : pstate P) (ops : list (cop P)) : pstate P * list answer :=
  match ops with
  | [] => (s, [])
  | o :: t => let r := dstep s o in let q := drun (fst r) t in (fst q, snd r :: snd q)
  end.
(** only reads, writes through the configuration, and replacements by a real component *)
Definition plain (o : cop P) : Prop := match o with OProv None => False | OExt _ => False | _ => True end.
(** the component never rejects a written tree during the history *)
Fixpoint accepted (s : pstate P) (ops : list (cop P)) : Prop :=
  match ops with
  | [] => True
  | o :: t =>
      match o with
      | OWrite p v => match tassign (pparams P s) p v with Ret tr => snd (psetp P s tr) = true | _ => True end
      | _ => True
      end /\ accepted (fst (dstep s o)) t
  end.
(** the configuration stands for component state s *)
Definition current (c : cfg P) : option (pstate P) :=
  match c_prov P c with Some s => Some s | None => match c_sup P c with Some x => x | None => None end end.
Definition coherent (c : cfg P) (s : pstate P) : Prop :=
  current c = Some s /\ (c_known P c = true -> c_cache P c = pparams P s /\ c_help P c = phelp P s /\ c_prov P c = Some s).

End S.
(** every set along the path is a proper map *)
Fixpoint sane (r : params) (p : list string) : Prop :=
  msorted TOstr r /\
  match p with
  | a :: t => match mfind TOstr a r with Some (PV _ (Some r')) => sane r' t | _ => True end
  | [] => True
  end.
