(** PropObs.v - properties C10..C12 of observer lists.  Vocabulary: ObsSpec.v. *)
From Coq Require Import List Arith ZArith Bool.
Require Import Verif.Base Verif.SMap Verif.ObsModel Verif.ObsSpec Verif.ObsFacts.
Import ListNotations.

(** ** C10 *)
(** Every history with fewer than INT_MAX subscriptions runs without undefined behaviour. *)
Theorem C10_history_defined : forall (T : Type) (ops : list (op T)),
  (Z.of_nat (length (filter is_add_op ops)) < INT_MAX)%Z -> exists s, history ops = Ret s.
Proof. exact @history_total. Qed.
Print Assumptions C10_history_defined.

(** Notification runs exactly the live callbacks, once each, in subscription order. *)
Theorem C10_notify_live_in_order : forall (W : Type) ops (m : elements (W -> W)) tr (w : W),
  history ops = Ret (m, tr) -> notify m w = fold_left (fun w cb => cb w) (map snd (live tr)) w.
Proof. exact @notify_ok. Qed.
Print Assumptions C10_notify_live_in_order.

(** The same when callbacks get access to the list but leave it alone ... *)
Theorem C10_reentrant_plain : forall (W C : Type) (call : C -> elements C * W -> elements C * W) m w,
  msorted TOZ m -> (forall c w', In c (map snd m) -> fst (call c (m, w')) = m) ->
  rnotify call (m, w) (Ret (m, fold_left (fun w c => snd (call c (m, w))) (map snd m) w)).
Proof. exact @rnotify_plain. Qed.
Print Assumptions C10_reentrant_plain.

(** ... but a callback that unsubscribes itself during the notification is undefined behaviour. *)
Theorem C10_self_unsubscribe_refuted : forall (W C : Type) (call : C -> elements C * W -> elements C * W) m w k c t,
  m = (k, c) :: t -> msorted TOZ m ->
  (forall w', fst (call c (m, w')) = remove m k) -> rnotify call (m, w) UB.
Proof. exact @rnotify_self_remove. Qed.
Print Assumptions C10_self_unsubscribe_refuted.

(** ** C11 *)
Theorem C11_terminating_or_no_short_circuit : forall (W : Type) ops (m : elements (W -> W * bool)) tr (w : W),
  history ops = Ret (m, tr) ->
  tnotify m w = (fst (respond (map snd (live tr)) w), existsb (fun b => b) (snd (respond (map snd (live tr)) w))).
Proof. exact @tnotify_ok. Qed.
Print Assumptions C11_terminating_or_no_short_circuit.

(** A forwarding subscriber answers with the OR of whatever the other list contains at that moment. *)
Theorem C11_forward_composes : forall (W : Type) (callee : W -> elements (W -> W * bool)) (w : W) ops tr,
  history ops = Ret (callee w, tr) ->
  tforward callee w = (fst (respond (map snd (live tr)) w), existsb (fun b => b) (snd (respond (map snd (live tr)) w))).
Proof. exact (fun W callee w ops tr H => tnotify_ok ops (callee w) tr w H). Qed.
Print Assumptions C11_forward_composes.

(** The same for lists without answers: forwarding notifies the live subscribers of the other list, in order. *)
Theorem C11_forward_plain : forall (W : Type) (callee : W -> elements (W -> W)) (w : W) ops tr,
  history ops = Ret (callee w, tr) -> forward callee w = fold_left (fun w cb => cb w) (map snd (live tr)) w.
Proof. exact (fun W callee w ops tr H => notify_ok ops (callee w) tr w H). Qed.
Print Assumptions C11_forward_plain.

(** ** C12 *)
Theorem C12_new_id_fresh : forall (T : Type) ops (m : elements T) tr x m' id,
  history ops = Ret (m, tr) -> add m x = Ret (m', id) ->
  ~ In id (map fst (live tr)) /\ m' = live tr ++ [(id, x)].
Proof. exact @add_id_fresh. Qed.
Print Assumptions C12_new_id_fresh.

Theorem C12_remove_only_that : forall (T : Type) ops (m : elements T) tr id,
  history ops = Ret (m, tr) ->
  (forall k x, In (k, x) (remove m id) <-> In (k, x) (live tr) /\ k <> id) /\ NoDup (map fst (live tr)).
Proof. exact @remove_only. Qed.
Print Assumptions C12_remove_only_that.

(** Arbitrarily nested scoped subscriptions restore the list. *)
Theorem C12_scoped_restores : forall (T : Type) ops (m : elements T) tr p m',
  history ops = Ret (m, tr) -> run_prog p m = Ret m' -> m' = live tr.
Proof.
  exact (fun T ops m tr p m' H R => match history_ok ops m tr H with conj HW HL =>
           eq_trans (run_prog_restores p m m' HW R) HL end).
Qed.
Print Assumptions C12_scoped_restores.

(** Moving a scoped subscription: destroying the moved-from object changes no list whatever it contains by then;
    destroying the new owner cancels that subscription and nothing else. *)
Theorem C12_scoped_move : forall (T : Type) ops (m : elements T) tr id,
  history ops = Ret (m, tr) -> id <> (-1)%Z ->
  fst (scoped_finish m (snd (scoped_move id))) = live tr /\
  (forall k x, In (k, x) (fst (scoped_finish m (fst (scoped_move id)))) <-> In (k, x) (live tr) /\ k <> id).
Proof. exact @scoped_move_ok. Qed.
Print Assumptions C12_scoped_move.
