(** PersSpec.v - vocabulary for C76: objects of the library, processes, parameter sets. *)
From Coq Require Import List Arith Bool ZArith String.
From Verif Require Import Base SMap FacModel FacSpec ParModel CfgModel InitModel InitSpec PersModel.
Import ListNotations.
Local Open Scope string_scope.
Local Open Scope list_scope.

(** * Processes *)
(** The compiler's type names: no slash, and different types have different names; factories are not named like the mixins of classes. *)
Definition good_naming (nm : naming) : Prop :=
  (forall i, no_slash (i_cls (n_iface nm i))) /\ (forall c, no_slash (c_cls (n_impl nm c))) /\
  (forall i j, n_iface nm i = n_iface nm j -> i = j) /\ (forall c d, n_impl nm c = n_impl nm d -> c = d) /\
  (forall i c, i_cls (n_iface nm i) <> c_cls (n_impl nm c)).
(** [h]: everything the process has asked of the factories.  The library's registrations are among it, in any order and among anything else;
    nothing else is registered under a name of the library, and no class of the library is registered otherwise. *)
Definition library_loaded (nm : naming) (h : list fop) : Prop :=
  (forall o, In o (registrations nm) -> In o h) /\
  (forall i x id, In (OReg i x id) h -> (exists c, n_iface nm c = i /\ (exists d, interface_of d = Some c /\ library_id d = id)) \/ (exists c, n_impl nm c = x) ->
                  In (OReg i x id) (registrations nm)).
(** a process with the library *)
Definition runs_library (nm : naming) (h : list fop) (st : storage) : Prop :=
  good_naming nm /\ good_names h /\ disjoint_names h /\ (forall i, ok_query h (n_iface nm i)) /\ (forall c, ok_class h (n_impl nm c)) /\
  library_loaded nm h /\ frun h = Ret st.

Section S.
Context {real : Type} (zero : real) (lit : Z -> Z -> real) (fmt : real -> string) (stod : string -> Outcome real).
(** * Objects of the library
    An object has the parameters of its class with values of their types: numbers that survive printing and reading, components of the right
    interface that are objects of the library.  A Newton solver without iteration performer has none of its parts, one with a performer has a
    line search; without a descent direction it has no Jacobian provider, with one it has a provider; a trimmer belongs to a provider.
    An adaptive solver has an error norm.  An implicit Euler solver has a Newton solver, which has a direction if it has a performer. *)
Definition rules (c : cls) (fs : @fields real) : Prop :=
  match c with
  | NewtonSolver =>
      (is_null "itperf" fs = true -> is_null "ddir" fs = true /\ is_null "linsearch" fs = true /\ is_null "err" fs = true) /\
      (is_null "itperf" fs = false -> is_null "linsearch" fs = false) /\
      is_null "ddir" fs = is_null "jacobian" fs /\ (is_null "jacobian" fs = true -> is_null "jtrim" fs = true)
  | SolverImplicitEuler => match fget "algsolver" fs with
                           | Some (FC (Some s)) => is_null "itperf" (fields_of s) = false -> is_null "ddir" (fields_of s) = false
                           | _ => False
                           end
  | SolverDopri45 | SolverDopri56 | SolverDopri78 | SolverRosSW24 | SolverExtrapolator => is_null "enorm" fs = false
  | _ => True
  end.
Inductive valid : @comp real -> Prop :=
| V_comp c fs : valid_fields (schema c) fs -> rules c fs -> valid (Comp c fs)
with valid_fields : list (string * kind) -> @fields real -> Prop :=
| V_nil : valid_fields [] []
| V_cons n k v sch fs : valid_value k v -> valid_fields sch fs -> valid_fields ((n, k) :: sch) ((n, v) :: fs)
with valid_value : kind -> @fval real -> Prop :=
| V_real x : survives fmt stod x -> valid_value KD (FD x)
| V_unsigned z : (0 <= z < 4294967296)%Z -> valid_value KU (FU z)
| V_bool b : valid_value KB (FB b)
| V_text s : valid_value KT (FT s)
| V_enum l s : In s l -> valid_value (KE l) (FT s)
| V_null i : valid_value (KC i) (FC None)
| V_part i t : interface_of (class_of t) = Some i -> valid t -> valid_value (KC i) (FC (Some t))
| V_state x : (Z.of_nat (List.length x) <= 2147483647)%Z -> (forall v, In v x -> survives fmt stod v) -> valid_value KX (FX x).
(** an object with the parameters of class [c], whatever their values *)
Definition kind_fits (k : kind) (v : @fval real) : Prop :=
  match k, v with
  | KD, FD _ | KU, FU _ | KB, FB _ | KT, FT _ | KE _, FT _ | KC _, FC _ | KX, FX _ => True
  | _, _ => False
  end.
Definition shaped (c : cls) (fs : @fields real) : Prop := Forall2 (fun nk nf => fst nk = fst nf /\ kind_fits (snd nk) (snd nf)) (schema c) fs.
(** the initial state of [t] has at least as many components as that of [t0] *)
Definition not_longer (t0 t : @comp real) : Prop :=
  match fget "state" (fields_of t0), fget "state" (fields_of t) with Some (FX x0), Some (FX x) => List.length x0 <= List.length x | _, _ => True end.
End S.

(** * Parameter sets *)
(** the names a class looks at *)
Definition names_of (c : cls) : list string := map fst (schema c).
(** Complete parameter trees: where a norm, a line search, a Newton solver, a descent direction is mentioned it is not null, and where an
    iteration performer is given, a direction and a line search are given too. *)
Definition given (n : string) (ps : params) : Prop := exists v, mfind TOstr n ps = Some v /\ text_of v <> "".
Inductive complete : pval -> Prop :=
| K_leaf s : complete (PV s None)
| K_tree s ps : complete_set ps -> (mfind TOstr "itperf" ps <> None -> given "ddir" ps /\ given "linsearch" ps) -> complete (PV s (Some ps))
with complete_set : params -> Prop :=
| K_nil : complete_set []
| K_cons n v ps : complete v -> (In n ["enorm"; "linsearch"; "algsolver"; "ddir"] -> text_of v <> "") -> complete_set ps -> complete_set ((n, v) :: ps).
(** * What the factories of a process answer for the classes of the library *)
Definition knows_library (r : registry) : Prop :=
  forall c i, interface_of c = Some i -> r_new r i (library_id c) = Some c /\ r_id r c = library_id c.
(** the factories create only classes of the interface asked for *)
Definition well_typed (r : registry) : Prop := forall i s c, r_new r i s = Some c -> interface_of c = Some i.
