(** PropFac.v - property C13 of the factory.  Vocabulary: FacSpec.v.
    [frun h] is the state of the process-wide storage after the history [h] of registrations and queries. *)
From Coq Require Import List Bool String.
Require Import Verif.Base Verif.SMap Verif.FacModel Verif.FacSpec Verif.FacFacts.
Import ListNotations.

Theorem C13_factory_lookup : forall h i id, good_names h -> disjoint_names h -> ok_query h i ->
  exists st, frun h = Ret st /\
    (forall c, last_reg i id h = Some c -> exists st', newInstance st i id = Ret (st', c)) /\
    (last_reg i id h = None -> newInstance st i id = Throw) /\
    (exists st', isTypeRegistered st i id = Ret (st', match last_reg i id h with Some _ => true | None => false end)).
Proof. exact factory_lookup. Qed.
Print Assumptions C13_factory_lookup.

Theorem C13_registered_types_sorted_once : forall h i, good_names h -> disjoint_names h -> ok_query h i ->
  exists st st' l, frun h = Ret st /\ registeredTypes st i = Ret (st', l) /\
    NoDup l /\ (forall id, In id l <-> last_reg i id h <> None) /\
    (forall l1 a l2 b l3, l = l1 ++ a :: l2 ++ b :: l3 -> str_cmp a b = Lt).
Proof. exact factory_types. Qed.
Print Assumptions C13_registered_types_sorted_once.

(** An object reports the id it was created by, provided its class was registered last under that id. *)
Theorem C13_instance_type_id : forall h i id c, good_names h -> disjoint_names h -> ok_query h i ->
  last_reg i id h = Some c -> last_id c h = Some id ->
  exists st st', frun h = Ret st /\ newInstance st i id = Ret (st', c) /\
    exists st'', typeIdOf st' c = Ret (st'', id).
Proof. exact factory_typeid. Qed.
Print Assumptions C13_instance_type_id.
