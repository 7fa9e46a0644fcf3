(** ObsSpec.v - which subscriptions are live after a trace of events. *)
From Coq Require Import List ZArith Bool.
Require Import Verif.ObsModel.
Import ListNotations.

(** a later event cancels a subscription with this id *)
Definition cancels {T} (id : Z) (e : event T) : bool :=
  match e with ERemove j => Z.eqb j id | EClear => true | EAdd _ _ => false end.
(** subscriptions never cancelled afterwards, in subscription order *)
Fixpoint live {T} (tr : list (event T)) : list (Z * T) :=
  match tr with
  | [] => []
  | EAdd id x :: rest => if existsb (cancels id) rest then live rest else (id, x) :: live rest
  | _ :: rest => live rest
  end.
Definition is_add {T} (e : event T) : bool := match e with EAdd _ _ => true | _ => false end.
Definition is_add_op {T} (o : op T) : bool := match o with Add _ => true | _ => false end.

(** run callbacks one after another, collecting every answer *)
Fixpoint respond {W} (l : list (W -> W * bool)) (w : W) : W * list bool :=
  match l with
  | [] => (w, [])
  | c :: t => let '(w1, b) := c w in let '(w2, bs) := respond t w1 in (w2, b :: bs)
  end.
