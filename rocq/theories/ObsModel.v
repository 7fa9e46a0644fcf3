(** ObsModel.v - model of include/ode_num_int/infra/cxx_observers.h.
    Callbacks are functions on an arbitrary world [W].  Ids are C++ int; the increment past INT_MAX is UB. *)
From Coq Require Import List Arith Lia ZArith Bool.
Require Import Verif.Base Verif.SMap.
Import ListNotations.
Local Open Scope Z_scope.

Definition INT_MAX : Z := 2147483647.

Section Ident.
Context {T : Type}.

(** IdentifiedElements::m_elements: std::map<int,T>.  cxx_observers.h 74 *)
Definition elements := list (Z * T).

(** newId: cxx_observers.h 75-84.  rbegin()->first is the last key. *)
Definition newId (m : elements) : Outcome Z :=
  match rev m with
  | [] => Ret 1
  | (k, _) :: _ => if Z.eqb k INT_MAX then UB else Ret (k + 1)
  end.
(** add: cxx_observers.h 42-47 *)
Definition add (m : elements) (x : T) : Outcome (elements * Z) :=
  id <- newId m ;; Ret (mput TOZ id x m, id).
(** remove: cxx_observers.h 53-61 (ASSERT is a no-op in release builds) *)
Definition remove (m : elements) (id : Z) : elements :=
  match mfind TOZ id m with None => m | Some _ => mdel TOZ id m end.
(** clear / empty: cxx_observers.h 64-71 *)
Definition clear (m : elements) : elements := [].
Definition empty (m : elements) : bool := match m with [] => true | _ => false end.

(** A history of client calls and the trace of what happened (the id an add returned). *)
Inductive op := Add (x : T) | Remove (id : Z) | Clear.
Inductive event := EAdd (id : Z) (x : T) | ERemove (id : Z) | EClear.
Definition step (s : elements * list event) (o : op) : Outcome (elements * list event) :=
  match o with
  | Add x => r <- add (fst s) x ;; Ret (fst r, snd s ++ [EAdd (snd r) x])
  | Remove id => Ret (remove (fst s) id, snd s ++ [ERemove id])
  | Clear => Ret (clear (fst s), snd s ++ [EClear])
  end.
Definition history (ops : list op) : Outcome (elements * list event) := ofold step ops ([], []).

(** ScopedIdentifiedElement: cxx_observers.h 107-153.  State: the id, -1 when finished or moved from. *)
Definition scoped_new (m : elements) (x : T) : Outcome (elements * Z) := add m x.
(** finish / destructor: 126-128, 143-148 *)
Definition scoped_finish (m : elements) (id : Z) : elements * Z :=
  if Z.eqb id (-1) then (m, -1) else (remove m id, -1).
(** move constructor: 133-135.  Returns (new object's id, moved-from object's id). *)
Definition scoped_move (id : Z) : Z * Z := (id, -1).

(** Block structured client code: nested and sequential scopes. *)
Inductive prog := Skip | Scoped (x : T) (body : prog) | Seq (p q : prog).
Fixpoint run_prog (p : prog) (m : elements) : Outcome elements :=
  match p with
  | Skip => Ret m
  | Scoped x body =>
      r <- scoped_new m x ;; m' <- run_prog body (fst r) ;; Ret (fst (scoped_finish m' (snd r)))
  | Seq p q => m' <- run_prog p m ;; run_prog q m'
  end.
End Ident.
Arguments elements : clear implicits.
Arguments op : clear implicits.
Arguments event : clear implicits.
Arguments prog : clear implicits.

Section Call.
Context {W : Type}.
(** Observers::operator(): cxx_observers.h 204-207; callbacks that do not modify the list. *)
Definition notify (m : elements (W -> W)) (w : W) : W :=
  fold_left (fun w p => snd p w) m w.
(** TerminatingObservers::operator(): cxx_observers.h 229-234 *)
Definition tnotify (m : elements (W -> W * bool)) (w : W) : W * bool :=
  fold_left (fun st p => let '(w, result) := st in let '(w', b) := snd p w in (w', b || result)) m (w, false).
(** forwardObservers: cxx_observers.h 242-257.  The callee is captured by reference, so it is read from the
    world when the callback runs. *)
Definition forward (callee : W -> elements (W -> W)) : W -> W := fun w => notify (callee w) w.
Definition tforward (callee : W -> elements (W -> W * bool)) : W -> W * bool := fun w => tnotify (callee w) w.
End Call.

(** Notification when callbacks may modify the list being iterated (range-for over std::map, 205-206):
    after the callback of key k returns, ++it is undefined if k was erased, else moves to the next larger key.
    A callback maps (list, world) to (list, world).  The relation is partial: a notification that keeps adding
    observers does not end. *)
Section Reentrant.
Context {W C : Type}.
Variable call : C -> elements C * W -> elements C * W.
Fixpoint next_key (k : Z) (m : elements C) : option (Z * C) :=
  match m with
  | [] => None
  | (k', c) :: t => if Z.ltb k k' then Some (k', c) else next_key k t
  end.
(** continue from the element with key k (callback c), about to be invoked *)
Inductive rnotify_at : Z -> C -> elements C * W -> Outcome (elements C * W) -> Prop :=
| ra_ub k c s : mfind TOZ k (fst (call c s)) = None -> rnotify_at k c s UB
| ra_end k c s : mfind TOZ k (fst (call c s)) <> None -> next_key k (fst (call c s)) = None ->
    rnotify_at k c s (Ret (call c s))
| ra_next k c s k' c' r : mfind TOZ k (fst (call c s)) <> None -> next_key k (fst (call c s)) = Some (k', c') ->
    rnotify_at k' c' (call c s) r -> rnotify_at k c s r.
Inductive rnotify : elements C * W -> Outcome (elements C * W) -> Prop :=
| rn_empty s : fst s = [] -> rnotify s (Ret s)
| rn_start s k c t r : fst s = (k, c) :: t -> rnotify_at k c s r -> rnotify s r.
End Reentrant.
