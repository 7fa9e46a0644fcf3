(** InitModel.v - model of ode/SpecifiedOdeInitState.h (specified initial state as a parameterised component)
    and of maybeSetParameter, maybeLoadParameter, infra/OptionalParameters.h 281-306.
    Real numbers, their printing and stod are parameters of the model. *)
From Coq Require Import List Arith Bool ZArith String.
From Verif Require Import Base SMap LexModel ParModel UtilModel.
Import ListNotations.
Local Open Scope nat_scope.
Local Notation length := List.length (only parsing).

Section Init.
(** real: the numbers; fmt: Value( double ) 84-89; stod: std::stod *)
Context {real : Type} (zero : real) (fmt : real -> string) (stod : string -> Outcome real).
(** Value( double ) 84-89 *)
Definition Value_double (x : real) : pvalue := mkV (fmt x) None.
(** toType( double& ) 150-155 *)
Definition to_double (v : pvalue) : Outcome real := if IsNumber (c_str (v_text v)) then stod (v_text v) else Throw.
(** m_initialTime, m_initialState: SpecifiedOdeInitState.h 54-55 *)
Record istate : Type := mkIst { is_time : real; is_x : list real }.
Definition is_new : istate := mkIst zero [].
(** varName 65-67 *)
Definition is_name (i : nat) : string := ("x" ++ FormatInt (Z.of_nat i))%string.
(** parameters 31-40; states of 2^31 or more variables are outside the model (int n 34) *)
Fixpoint put_vars (i : nat) (x : list real) (ps : pset) : pset :=
  match x with [] => ps | v :: t => put_vars (i + 1) t (mput TOstr (is_name i) (Value_double v) ps) end.
Definition is_params (s : istate) : pset :=
  put_vars 0 (is_x s) (mput TOstr "time"%string (Value_double (is_time s)) (mput TOstr "size"%string (Value_int (Z.of_nat (length (is_x s)))) [])).
(** resize 57-63: a negative size becomes a huge one (std::length_error); shrinking fills a range that ends before it begins *)
Definition is_resize (z : Z) (x : list real) : Outcome (list real) :=
  if (z <? 0)%Z then Throw
  else if Z.to_nat z =? length x then Ret x
  else if Z.to_nat z <? length x then UB
  else Ret (x ++ repeat zero (Z.to_nat z - length x)).
(** maybeLoadParameter 301-306 (281-293) *)
Definition maybe_load (ps : pset) (name : string) (dst : real) : Outcome real :=
  match mfind TOstr name ps with None => Ret dst | Some v => to_double v end.
(** the loop 48-50: components assigned before an exception stay assigned *)
Fixpoint load_vars (ps : pset) (i : nat) (x : list real) : list real * Outcome unit :=
  match x with
  | [] => ([], Ret tt)
  | v :: t => match maybe_load ps (is_name i) v with
              | Ret w => let (t', r) := load_vars ps (i + 1) t in (w :: t', r)
              | Throw => (x, Throw) | UB => (x, UB)
              end
  end.
(** setParameters 42-51: the object afterwards, and how the call ended *)
Definition is_set (ps : pset) (s : istate) : istate * Outcome unit :=
  let size := match mfind TOstr "size"%string ps with None => Ret (is_x s) | Some v => z <- to_int v ;; is_resize z (is_x s) end in
  match size with
  | Throw => (s, Throw) | UB => (s, UB)
  | Ret x => match maybe_load ps "time"%string (is_time s) with
             | Throw => (mkIst (is_time s) x, Throw) | UB => (mkIst (is_time s) x, UB)
             | Ret t => let (x', r) := load_vars ps 0 x in (mkIst t x', r)
             end
  end.
End Init.
