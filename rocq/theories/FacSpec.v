(** FacSpec.v - what a factory should answer, from the history of registrations alone. *)
From Coq Require Import List Bool String Ascii.
Require Import Verif.FacModel.
Import ListNotations.

Definition iface_eqb (a b : iface) : bool := String.eqb (i_cls a) (i_cls b) && String.eqb (i_reg a) (i_reg b).
Definition impl_eqb (a b : impl) : bool := String.eqb (c_cls a) (c_cls b) && String.eqb (c_str a) (c_str b).
(** class registered last under [id] for interface [i] *)
Fixpoint last_reg (i : iface) (id : string) (h : list fop) : option impl :=
  match h with
  | [] => None
  | OReg i' c id' :: t =>
      match last_reg i id t with
      | Some c' => Some c'
      | None => if iface_eqb i i' && String.eqb id id' then Some c else None
      end
  | _ :: t => last_reg i id t
  end.
(** id under which class [c] was registered last *)
Fixpoint last_id (c : impl) (h : list fop) : option string :=
  match h with
  | [] => None
  | OReg _ c' id' :: t => match last_id c t with Some s => Some s | None => if impl_eqb c c' then Some id' else None end
  | _ :: t => last_id c t
  end.
(** no '/' in a type name *)
Fixpoint no_slash (s : string) : Prop :=
  match s with EmptyString => True | String a t => a <> "/"%char /\ no_slash t end.
(** Type names as typeid produces them: no slash, and a factory class is never named like a mixin class. *)
Definition good_names (h : list fop) : Prop :=
  (forall i c id, In (OReg i c id) h -> no_slash (i_cls i) /\ no_slash (c_cls c)) /\
  (forall i id, In (ONew i id) h -> no_slash (i_cls i)) /\
  (forall i, In (OTypes i) h -> no_slash (i_cls i)) /\
  (forall c, In (OTypeId c) h -> no_slash (c_cls c)).
Definition mentions_iface (h : list fop) (i : iface) : Prop :=
  (exists c id, In (OReg i c id) h) \/ (exists id, In (ONew i id) h) \/ In (OTypes i) h.
Definition mentions_impl (h : list fop) (c : impl) : Prop := (exists i id, In (OReg i c id) h) \/ In (OTypeId c) h.
Definition disjoint_names (h : list fop) : Prop :=
  forall i c, mentions_iface h i -> mentions_impl h c -> i_cls i <> c_cls c.
(** The interface/class a client asks about is named the same way. *)
Definition ok_query (h : list fop) (i : iface) : Prop :=
  no_slash (i_cls i) /\ forall c, mentions_impl h c -> i_cls i <> c_cls c.
Definition ok_class (h : list fop) (c : impl) : Prop :=
  no_slash (c_cls c) /\ forall i, mentions_iface h i -> i_cls i <> c_cls c.

