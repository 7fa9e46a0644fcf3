(** PropPers.v - C76: saving and loading trees of library objects.  Vocabulary: PersSpec.v; model: PersModel.v.
    [to_value fmt r (Some t)] is Value( shared_ptr ), [from_value zero lit stod r v i] is value< shared_ptr<I> >(), [save] is parameters(), in a process whose factories answer as [r]. *)
From Coq Require Import List Arith Bool ZArith String Permutation.
From Verif Require Import Base SMap FacModel FacSpec ParModel CfgModel InitModel InitSpec PersModel PersSpec PersFacts PersFacts2 PersFacts3 PersFacts4.
Import ListNotations.
Local Open Scope string_scope.

(** C76.  Whatever the order in which the registrators of the library are constructed, the process has the library. *)
Theorem C76_any_order : forall (nm : naming) (h : list fop), good_naming nm -> Permutation h (registrations nm) -> exists st, runs_library nm h st.
Proof. exact registered_anyhow. Qed.
Print Assumptions C76_any_order.
(** C76.  In a process with the library (and possibly more classes) each name creates its class and an object of the class reports that name; the factories create only classes of the interface asked for. *)
Theorem C76_registry : forall (nm : naming) (h : list fop) (st : storage), runs_library nm h st ->
  (forall c i, interface_of c = Some i -> (exists st', newInstance st (n_iface nm i) (library_id c) = Ret (st', n_impl nm c)) /\ (exists st', typeIdOf st (n_impl nm c) = Ret (st', library_id c))) /\
  knows_library (process nm st) /\ well_typed (process nm st).
Proof. intros nm h st L. destruct (registry_ok nm h st L) as [A B]. exact (conj A (conj B (typed_ok nm h st L))). Qed.
Print Assumptions C76_registry.
(** C76.  With the library alone, any other name throws. *)
Theorem C76_other_names : forall (nm : naming) (h : list fop) (st : storage), runs_library nm h st -> forall (i : ifc) (id : string), (forall j x s, In (OReg j x s) h -> In (OReg j x s) (registrations nm)) ->
  (forall c, interface_of c = Some i -> library_id c <> id) -> newInstance st (n_iface nm i) id = Throw /\ r_new (process nm st) i id = None.
Proof. exact registry_only. Qed.
Print Assumptions C76_other_names.
(** C76.  An object of the library saved in one process and loaded in another is the same object with the same components, all the way down. *)
Theorem C76_round_trip : forall (real : Type) (zero : real) (lit : Z -> Z -> real) (fmt : real -> string) (stod : string -> Outcome real) (r r' : registry) (t : comp) (i : ifc),
  knows_library r -> knows_library r' -> valid fmt stod t -> interface_of (class_of t) = Some i ->
  exists v, to_value fmt r (Some t) = Ret v /\ text_of v = library_id (class_of t) /\ from_value zero lit stod r' v i = Ret (Some t).
Proof. exact @round_trip_tree. Qed.
Print Assumptions C76_round_trip.
(** C76.  The parameters of an object set into any other object of its class make it equal to the first. *)
Theorem C76_restore : forall (real : Type) (zero : real) (lit : Z -> Z -> real) (fmt : real -> string) (stod : string -> Outcome real) (r r' : registry) (t : comp),
  knows_library r -> knows_library r' -> valid fmt stod t -> exists ps, save fmt r t = Ret ps /\
  forall fs0, shaped (class_of t) fs0 -> not_longer (Comp (class_of t) fs0) t -> setParameters zero lit stod r' ps (Comp (class_of t) fs0) = (t, Ret tt).
Proof. exact @restore. Qed.
Print Assumptions C76_restore.
(** C76.  Objects just created are objects of the library in the sense of the two theorems above. *)
Theorem C76_fresh : forall (real : Type) (zero : real) (lit : Z -> Z -> real) (fmt : real -> string) (stod : string -> Outcome real) (r : registry) (c : cls) (t : comp),
  knows_library r -> (forall a b, survives fmt stod (lit a b)) -> survives fmt stod zero -> make zero lit r c = Ret t -> class_of t = c /\ valid fmt stod t.
Proof. exact @fresh_valid. Qed.
Print Assumptions C76_fresh.
(** C76.  A parameter that is not in the set keeps its value, however setParameters ends; names the class does not have are ignored. *)
Theorem C76_not_given : forall (real : Type) (zero : real) (lit : Z -> Z -> real) (stod : string -> Outcome real) (r : registry) (c : cls) (ps : params) (n : string) (fs : fields),
  c <> NewtonSolver -> c <> InitSpecified -> mfind TOstr n ps = None -> fget n (fields_of (fst (setParameters zero lit stod r ps (Comp c fs)))) = fget n fs.
Proof. exact @untouched. Qed.
Print Assumptions C76_not_given.
Theorem C76_unknown_names : forall (real : Type) (zero : real) (lit : Z -> Z -> real) (stod : string -> Outcome real) (r : registry) (c : cls) (ps ps' : params) (fs : fields),
  c <> InitSpecified -> (forall n, In n (names_of c) -> mfind TOstr n ps = mfind TOstr n ps') -> setParameters zero lit stod r ps (Comp c fs) = setParameters zero lit stod r ps' (Comp c fs).
Proof. exact @unknown_names. Qed.
Print Assumptions C76_unknown_names.
(** C76.  A Newton solver whose iteration performer is set by parameters alone loses direction, Jacobian provider, trimmer, line search and error estimator. *)
Theorem C76_performer_resets : forall (real : Type) (zero : real) (lit : Z -> Z -> real) (stod : string -> Outcome real) (r : registry) (v : pval) (o : option comp) (a1 a2 a3 a4 a5 a6 a7 a8 : fval),
  from_value zero lit stod r v IIteration = Ret o ->
  setParameters zero lit stod r [("itperf", v)] (Comp NewtonSolver [("itperf", a1); ("regularizer", a2); ("max_iterations", a3); ("ddir", a4); ("jacobian", a5); ("jtrim", a6); ("linsearch", a7); ("err", a8)]) =
  (Comp NewtonSolver [("itperf", FC o); ("regularizer", a2); ("max_iterations", a3); ("ddir", FC None); ("jacobian", FC None); ("jtrim", FC None); ("linsearch", FC None); ("err", FC None)], Ret tt).
Proof. exact @performer_resets. Qed.
Print Assumptions C76_performer_resets.
(** C76.  An unregistered type name throws; an object of a class that is not registered is loaded as a null pointer. *)
Theorem C76_bad_type : forall (real : Type) (zero : real) (lit : Z -> Z -> real) (stod : string -> Outcome real) (r : registry) (s : string) (nested : option params) (i : ifc),
  s <> "" -> r_new r i s = None -> from_value zero lit stod r (PV s nested) i = Throw.
Proof. exact @bad_type. Qed.
Print Assumptions C76_bad_type.
Theorem C76_unregistered : forall (real : Type) (zero : real) (lit : Z -> Z -> real) (fmt : real -> string) (stod : string -> Outcome real) (r r' : registry) (t : comp) (v : pval) (i : ifc),
  r_id r (class_of t) = "" -> to_value fmt r (Some t) = Ret v -> from_value zero lit stod r' v i = Ret None.
Proof. exact @lost. Qed.
Print Assumptions C76_unregistered.
(** C76.  Loading a complete parameter tree never runs into undefined behaviour, whatever the texts in it. *)
Theorem C76_defined : forall (real : Type) (zero : real) (lit : Z -> Z -> real) (stod : string -> Outcome real), (forall s, stod s <> UB) ->
  forall r : registry, knows_library r -> well_typed r -> forall (v : pval) (i : ifc), complete v -> from_value zero lit stod r v i <> UB.
Proof. exact (fun real zero lit stod => @no_ub real zero lit (fun _ => "") stod). Qed.
Print Assumptions C76_defined.
