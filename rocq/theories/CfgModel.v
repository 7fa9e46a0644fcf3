(** CfgModel.v - model of include/ode_num_int/infra/ComponentConfiguration.h and of the notified property
    class of include/ode_num_int/infra/def_prop_class.h.
    Parameter sets are pure trees here: sharing of nested sets between values is modelled in ParModel.v. *)
From Coq Require Import List Arith ZArith Bool String.
Require Import Verif.Base Verif.SMap Verif.ObsModel.
Import ListNotations.
Local Open Scope string_scope.

(** * Parameter trees *)
Inductive pval := PV (text : string) (nested : option (list (string * pval))).
Definition params := list (string * pval).
(** OptionalParameters::value( root, path ), OptionalParameters.h 191-231, for reading *)
Fixpoint tvalue (r : params) (p : list string) : Outcome pval :=
  match p with
  | [] => Throw
  | a :: t =>
      match mfind TOstr a r with
      | None => Throw
      | Some (PV s n) =>
          match t with
          | [] => Ret (PV s n)
          | _ => match n with None => Throw | Some r' => tvalue r' t end
          end
      end
  end.
(** value( root, path ) = v *)
Fixpoint tassign (r : params) (p : list string) (v : pval) : Outcome params :=
  match p with
  | [] => Throw
  | a :: t =>
      match mfind TOstr a r with
      | None => Throw
      | Some (PV s n) =>
          match t with
          | [] => Ret (mput TOstr a v r)
          | _ => match n with
                 | None => Throw
                 | Some r' => r'' <- tassign r' t v ;; Ret (mput TOstr a (PV s (Some r'')) r)
                 end
          end
      end
  end.

(** * The configured component: any implementation of the OptionalParameters interface.
    setParameters may change the state and then throw (false). *)
Record provider := mkProvider {
  pstate : Type;
  pparams : pstate -> params;                     (* parameters() *)
  phelp : pstate -> params;                       (* helpOnParameters() *)
  psetp : pstate -> params -> pstate * bool       (* setParameters() *)
}.

Section Cfg.
Variable P : provider.
(** Data members: ComponentConfiguration.h 70-74.  [sup] = None: empty std::function. *)
Record cfg := mkCfg {
  c_prov : option (pstate P);
  c_sup : option (option (pstate P));
  c_cache : params;
  c_help : params;
  c_known : bool }.
(** constructors: 15-22 *)
Definition cfg_default : cfg := mkCfg None None [] [] true.
Definition cfg_supplied (s : option (pstate P)) : cfg := mkCfg None (Some s) [] [] false.
(** setParameterProvider: 24-28 *)
Definition setParameterProvider (c : cfg) (p : option (pstate P)) : cfg :=
  mkCfg p (c_sup c) (c_cache c) (c_help c) false.
(** parameterProvider: 30-35 *)
Definition parameterProvider (c : cfg) : cfg * Outcome (option (pstate P)) :=
  match c_prov c with
  | Some p => (c, Ret (Some p))
  | None => match c_sup c with
            | None => (c, Throw)                                  (* std::bad_function_call *)
            | Some s => (mkCfg s (c_sup c) (c_cache c) (c_help c) (c_known c), Ret s)
            end
  end.
(** the loading part of parametersPriv: 91-98 *)
Definition load (c : cfg) : cfg * Outcome unit :=
  if c_known c then (c, Ret tt)
  else
    let r := parameterProvider c in
    match snd r with
    | Ret (Some p) => (mkCfg (c_prov (fst r)) (c_sup (fst r)) (pparams P p) (phelp P p) true, Ret tt)
    | Ret None => (fst r, Ret tt)
    | Throw => (fst r, Throw)
    | UB => (fst r, UB)
    end.
(** value: 45-51, 102-106 *)
Definition cvalue (c : cfg) (p : list string) : cfg * Outcome pval :=
  let r := load c in
  match snd r with
  | Ret _ => (fst r, tvalue (c_cache (fst r)) p)
  | Throw => (fst r, Throw) | UB => (fst r, UB) end.
(** setValue: 53-59, 108-116 *)
Definition csetValue (c : cfg) (p : list string) (v : pval) : cfg * Outcome unit :=
  let r := load c in
  match snd r with
  | Throw => (fst r, Throw) | UB => (fst r, UB)
  | Ret _ =>
      let c1 := fst r in
      match tassign (c_cache c1) p v with
      | Throw => (c1, Throw) | UB => (c1, UB)
      | Ret t =>
          let c2 := mkCfg (c_prov c1) (c_sup c1) t (c_help c1) (c_known c1) in
          let q := parameterProvider c2 in
          match snd q with
          | Throw => (fst q, Throw) | UB => (fst q, UB)
          | Ret None => (fst q, UB)                               (* null dereference *)
          | Ret (Some ps) =>
              let c3 := fst q in
              let s := psetp P ps t in
              let c4 := mkCfg (Some (fst s)) (c_sup c3) (c_cache c3) (c_help c3) (c_known c3) in
              if snd s then (mkCfg (c_prov c4) (c_sup c4) (c_cache c4) (c_help c4) false, Ret tt)
              else (c4, Throw)
          end
      end
  end.
(** helpOnValue: 61-67, 118-127 *)
Definition help_text (h : params) (p : list string) : string :=
  match tvalue h p with Ret (PV s _) => if String.eqb s "" then "No help is available" else s | _ => "No help is available" end.
Definition chelp (c : cfg) (p : list string) : cfg * Outcome string :=
  let r := load c in
  match snd r with
  | Ret _ => (fst r, Ret (help_text (c_help (fst r)) p))
  | Throw => (fst r, Throw) | UB => (fst r, UB) end.

(** Client histories.  [OExt s]: somebody changes the component without going through the configuration. *)
Inductive cop := ORead (p : list string) | OWrite (p : list string) (v : pval) | OHelp (p : list string)
               | OProv (s : option (pstate P)) | OExt (s : pstate P).
Inductive answer := ARead (r : Outcome pval) | AWrite (r : Outcome unit) | AHelp (r : Outcome string) | ANone.
Definition cstep (c : cfg) (o : cop) : cfg * answer :=
  match o with
  | ORead p => let r := cvalue c p in (fst r, ARead (snd r))
  | OWrite p v => let r := csetValue c p v in (fst r, AWrite (snd r))
  | OHelp p => let r := chelp c p in (fst r, AHelp (snd r))
  | OProv s => (setParameterProvider c s, ANone)
  | OExt s => (mkCfg (match c_prov c with Some _ => Some s | None => None end) (c_sup c) (c_cache c) (c_help c) (c_known c), ANone)
  end.
Fixpoint crun (c : cfg) (ops : list cop) : cfg * list answer :=
  match ops with
  | [] => (c, [])
  | o :: t => let r := cstep c o in let q := crun (fst r) t in (fst q, snd r :: snd q)
  end.
End Cfg.
Arguments ORead {P}. Arguments OWrite {P}. Arguments OHelp {P}. Arguments OProv {P}. Arguments OExt {P}.

(** * Notified property: def_prop_class.h 101-138.
    State: the value, the observers in id order (cxx_observers.h), and the rest of the world [W].
    An observer receives the passed value and may call the setter of the same object again, given as [self].
    [byref] tells whether PassedPropType is a reference (the observer then sees the current m_value).
    [fuel] bounds the nesting of setter calls; None means it was exceeded (endless recursion in C++). *)
Section Prop_.
Variables (T W : Type).
Definition pst : Type := T * W.
Definition pobserver := (T -> pst -> option pst) -> T -> pst -> option pst.
Fixpoint notify_prop (byref : bool) (self : T -> pst -> option pst) (obs : list pobserver) (v : T) (s : pst) : option pst :=
  match obs with
  | [] => Some s
  | o :: t => match o self (if byref then fst s else v) s with
              | None => None
              | Some s' => notify_prop byref self t v s'
              end
  end.
(** propSetter: def_prop_class.h 109-112 *)
Fixpoint set_prop (byref : bool) (fuel : nat) (obs : list pobserver) (v : T) (s : pst) : option pst :=
  match fuel with
  | O => None
  | S f => notify_prop byref (set_prop byref f obs) obs v (v, snd s)
  end.
(** An observer that only looks at the value: def_prop_class.h 116-125, 132-137 *)
Definition plain_obs (f : T -> W -> W) : pobserver := fun _ v s => Some (fst s, f v (snd s)).
(** A property object with its subscription list (ObsModel.v) and the trace of subscriptions, used by a client
    whose observers do not call back into the object. *)
Record pobj := mkPobj { o_val : T; o_obs : elements (T -> W -> W); o_trace : list (event (T -> W -> W)); o_world : W }.
Inductive pop := PAdd (f : T -> W -> W) | PRemove (id : Z) | PSet (v : T).
Definition pstep (byref : bool) (o : pobj) (a : pop) : Outcome pobj :=
  match a with
  | PAdd f => r <- step (o_obs o, o_trace o) (Add f) ;; Ret (mkPobj (o_val o) (fst r) (snd r) (o_world o))
  | PRemove id => r <- step (o_obs o, o_trace o) (Remove id) ;; Ret (mkPobj (o_val o) (fst r) (snd r) (o_world o))
  | PSet v => match set_prop byref 1 (map plain_obs (map snd (o_obs o))) v (o_val o, o_world o) with
              | Some s => Ret (mkPobj (fst s) (o_obs o) (o_trace o) (snd s))
              | None => UB
              end
  end.
Definition prun (byref : bool) (v0 : T) (w0 : W) (ops : list pop) : Outcome pobj :=
  ofold (pstep byref) ops (mkPobj v0 [] [] w0).
End Prop_.
