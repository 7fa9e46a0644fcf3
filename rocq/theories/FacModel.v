(** FacModel.v - model of include/ode_num_int/infra/Factory.h and PerTypeStorage.h.
    Types are represented by their typeid names; a generator is represented by the class it creates. *)
From Coq Require Import List Arith Bool String Ascii.
Require Import Verif.Base Verif.SMap.
Import ListNotations.
Local Open Scope string_scope.

(** Names of Factory<I> and of its Registry type (Factory.h 80, 137), one record per interface. *)
Record iface := mkIface { i_cls : string; i_reg : string }.
(** An implementation class: name of FactoryMixin<T,I> and of the TypeId type. Factory.h 177-196 *)
Record impl := mkImpl { c_cls : string; c_str : string }.

(** Contents of a storage cell: a registry (typeId -> generator) or a type id. *)
Inductive cell := CReg (r : list (string * impl)) | CId (s : string).
(** PerTypeStorage::m_data: map< string, void* >.  PerTypeStorage.h 50-59 *)
Definition storage := list (string * cell).

(** The key: PerTypeStorage.h 33 *)
Definition key (cls val : string) : string := cls ++ " / " ++ val.

(** value<ClassType,ValueType>(): PerTypeStorage.h 32-48.  A missing cell is created with the default value;
    reinterpret_cast of a cell of the other type is UB. *)
Definition reg_cell (st : storage) (i : iface) : Outcome (storage * list (string * impl)) :=
  let k := key (i_cls i) (i_reg i) in
  match mfind TOstr k st with
  | None => Ret (mput TOstr k (CReg []) st, [])
  | Some (CReg r) => Ret (st, r)
  | Some (CId _) => UB
  end.
Definition id_cell (st : storage) (c : impl) : Outcome (storage * string) :=
  let k := key (c_cls c) (c_str c) in
  match mfind TOstr k st with
  | None => Ret (mput TOstr k (CId "") st, "")
  | Some (CId s) => Ret (st, s)
  | Some (CReg _) => UB
  end.

(** registerType: Factory.h 99-104 (ASSERT is a no-op) *)
Definition registerType (st : storage) (i : iface) (id : string) (g : impl) : Outcome storage :=
  x <- reg_cell st i ;;
  Ret (mput TOstr (key (i_cls i) (i_reg i)) (CReg (mput TOstr id g (snd x))) (fst x)).
(** FactoryMixin::Registrator: Factory.h 193-196 *)
Definition registrator (st : storage) (i : iface) (c : impl) (id : string) : Outcome storage :=
  st1 <- registerType st i id c ;;
  x <- id_cell st1 c ;;
  Ret (mput TOstr (key (c_cls c) (c_str c)) (CId id) (fst x)).
(** newInstance: Factory.h 111-118.  The result is the class of the created object. *)
Definition newInstance (st : storage) (i : iface) (id : string) : Outcome (storage * impl) :=
  x <- reg_cell st i ;;
  match mfind TOstr id (snd x) with None => Throw | Some g => Ret (fst x, g) end.
(** registeredTypes: Factory.h 122-128 *)
Definition registeredTypes (st : storage) (i : iface) : Outcome (storage * list string) :=
  x <- reg_cell st i ;; Ret (fst x, map fst (snd x)).
(** isTypeRegistered: Factory.h 132-134 *)
Definition isTypeRegistered (st : storage) (i : iface) (id : string) : Outcome (storage * bool) :=
  x <- reg_cell st i ;; Ret (fst x, match mfind TOstr id (snd x) with Some _ => true | None => false end).
(** typeId() of an object of class c: Factory.h 201-208 *)
Definition typeIdOf (st : storage) (c : impl) : Outcome (storage * string) := id_cell st c.

(** A program run: registrations and queries in any order (queries create empty cells). *)
Inductive fop := OReg (i : iface) (c : impl) (id : string) | ONew (i : iface) (id : string)
               | OTypes (i : iface) | OTypeId (c : impl).
Definition fstep (st : storage) (o : fop) : Outcome storage :=
  match o with
  | OReg i c id => registrator st i c id
  | ONew i id => match newInstance st i id with Ret x => Ret (fst x) | Throw => (x <- reg_cell st i ;; Ret (fst x)) | UB => UB end
  | OTypes i => x <- registeredTypes st i ;; Ret (fst x)
  | OTypeId c => x <- typeIdOf st c ;; Ret (fst x)
  end.
Definition frun (ops : list fop) : Outcome storage := ofold fstep ops [].
