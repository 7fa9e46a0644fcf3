(** PersModel.v - model of component trees and their parameters: the class registrators (alg/reg, ode/reg, src/reg_ode_solvers.cpp),
    parameters() and setParameters() of the registered classes, and the conversion of a component to a parameter value and back,
    infra/OptionalParameters.h 391-416.
    Modelled of an object: its class and what parameters() shows of it.  The mapping, the observers and the numerical state of an
    object are not modelled; a null pointer dereferenced by a setter or by its observers is UB.
    Real numbers, their printing, stod and the literals of the constructors are parameters of the model. *)
From Coq Require Import List Arith Bool ZArith String.
From Verif Require Import Base SMap FacModel ParModel CfgModel InitModel.
Import ListNotations.
Local Open Scope string_scope.
Local Open Scope list_scope.

(** * Classes and interfaces *)
(** The registered classes: AlgebraicSolverClassesRegistrator.h 51-70, OdeEventControllerClassesRegistrator.h 18,
    OdeSolverCommonClassesRegistrator.h 20-21, OdeSolverClassesRegistrator.h 36-45, OdeStepMappingClassesRegistrator.h 21-23,
    OdeSolverOutputClassesRegistrator.h 21-24, OdeTestModelClassesRegistrator.h 26-30, src/reg_ode_solvers.cpp 10-12;
    and the unregistered root, OdeSolverConfiguration.h 104-113. *)
Inductive cls :=
| Oscillator | CoupledOscillators | StiffOde | SlidingPoint | BouncingBall
| SolverEuler | SolverRK4 | SolverDopri45 | SolverDopri56 | SolverDopri78 | SolverRosW1 | SolverRosSW24
| SolverGragg | SolverExtrapolator | SolverImplicitEuler
| NewtonSolver | IterationPerformer | JacobianDefault | JacobianSparse | ErrorSimple | TrimWidth | TrimThreshold
| DirSimple | DirBroyden | DirFakeBroyden | DirLazyFakeBroyden | DirHart | DirConst | LineSearchSimple
| EventLinear | NormInf | StepSizeSimple | StepMappingEuler | InitSpecified
| OutStatistics | OutGeneral | OutSolution | OutColumnwise
| SeqRomberg | SeqBulirsch | SeqHarmonic
| Root.
(** The factory interfaces. *)
Inductive ifc :=
| IRhs | ISolver | INewton | IIteration | IRegularization | IDirection | IJacobian | ITrimmer | ILineSearch | IError
| IStepSize | INorm | IEvent | ISequence | IInit | IOutput | IStepMapping | IReordering.
(** The second argument of FactoryMixin< Class, Interface > in the head of each class. *)
Definition interface_of (c : cls) : option ifc :=
  match c with
  | Oscillator | CoupledOscillators | StiffOde | SlidingPoint | BouncingBall => Some IRhs
  | SolverEuler | SolverRK4 | SolverDopri45 | SolverDopri56 | SolverDopri78 | SolverRosW1 | SolverRosSW24
  | SolverGragg | SolverExtrapolator | SolverImplicitEuler => Some ISolver
  | NewtonSolver => Some INewton
  | IterationPerformer => Some IIteration
  | JacobianDefault | JacobianSparse => Some IJacobian
  | ErrorSimple => Some IError
  | TrimWidth | TrimThreshold => Some ITrimmer
  | DirSimple | DirBroyden | DirFakeBroyden | DirLazyFakeBroyden | DirHart | DirConst => Some IDirection
  | LineSearchSimple => Some ILineSearch
  | EventLinear => Some IEvent
  | NormInf => Some INorm
  | StepSizeSimple => Some IStepSize
  | StepMappingEuler => Some IStepMapping
  | InitSpecified => Some IInit
  | OutStatistics | OutGeneral | OutSolution | OutColumnwise => Some IOutput
  | SeqRomberg | SeqBulirsch | SeqHarmonic => Some ISequence
  | Root => None
  end.
(** Type ids: AlgebraicSolverClassesRegistrator.h 23-43, OdeEventControllerClassesRegistrator.h 10, OdeSolverCommonClassesRegistrator.h 11-12,
    OdeSolverClassesRegistrator.h 19-28, OdeStepMappingClassesRegistrator.h 11-13, OdeSolverOutputClassesRegistrator.h 10-13,
    OdeTestModelClassesRegistrator.h 14-18, src/reg_ode_solvers.cpp 10-12 *)
Definition library_id (c : cls) : string :=
  match c with
  | Oscillator => "oscillator" | CoupledOscillators => "coupled_nl_osc" | StiffOde => "stiff_1d"
  | SlidingPoint => "sliding_point" | BouncingBall => "bouncing_ball"
  | SolverEuler => "euler" | SolverRK4 => "rk4" | SolverDopri45 => "dopri_45" | SolverDopri56 => "dopri_56" | SolverDopri78 => "dopri_78"
  | SolverRosW1 => "rosenbrock_w1" | SolverRosSW24 => "rosenbrock_sw2_4" | SolverGragg => "gragg"
  | SolverExtrapolator => "extrapolator" | SolverImplicitEuler => "i_euler"
  | NewtonSolver => "newton" | IterationPerformer => "default" | JacobianDefault => "default" | JacobianSparse => "sparse"
  | ErrorSimple => "simple" | TrimWidth => "width" | TrimThreshold => "threshold"
  | DirSimple => "simple" | DirBroyden => "broyden" | DirFakeBroyden => "fake-broyden" | DirLazyFakeBroyden => "lazy-fake-broyden"
  | DirHart => "hart" | DirConst => "const" | LineSearchSimple => "simple"
  | EventLinear => "linear" | NormInf => "inf" | StepSizeSimple => "simple" | StepMappingEuler => "euler" | InitSpecified => "specified"
  | OutStatistics => "stats_full" | OutGeneral => "con_general" | OutSolution => "con_solution" | OutColumnwise => "con_solution_columnwise"
  | SeqRomberg => "romberg" | SeqBulirsch => "bulirsch" | SeqHarmonic => "harmonic"
  | Root => ""
  end.
(** Classes derived from OptionalParameters.  Not: JacobianProvider.h 12-15, ExtrapolatorStepSequence.h 12-13. *)
Definition has_parameters (c : cls) : bool :=
  match c with JacobianDefault | JacobianSparse | SeqRomberg | SeqBulirsch | SeqHarmonic => false | _ => true end.

(** * Parameters of the classes *)
(** Type of a parameter: double, unsigned int, bool, std::string, one of given texts, component of an interface; [KX]: the components
    of an initial state. *)
Inductive kind := KD | KU | KB | KT | KE (texts : list string) | KC (i : ifc) | KX.
(** OdeSolver.h 176-179 and 186-189 *)
Definition base_solver : list (string * kind) := [("h_init", KD); ("h_min", KD)].
(** OdeSolverErrorNormCalculator.h 35-43, OdeSolverStepSizeController.h 30-38, OdeSolverEventController.h 37-45, OdeSolverJacobianTrimmer.h 30-38, OdeNewtonSolver.h 30-38 *)
Definition enorm := ("enorm", KC INorm).
Definition stepsizectl := ("stepsizectl", KC IStepSize).
Definition eventctl := ("eventctl", KC IEvent).
Definition jtrim := ("jtrim", KC ITrimmer).
Definition algsolver := ("algsolver", KC INewton).
(** OdeSolverExplicitEmbeddedRK.h 153-176 *)
Definition embedded : list (string * kind) :=
  base_solver ++ [enorm; stepsizectl; eventctl; ("disable_error_check", KB); ("force_error_calc", KB); ("h_after_switch", KD); ("mode", KE ["high"; "low"])].
(** Names and types of the parameters in the order in which setParameters() reads them. *)
Definition schema (c : cls) : list (string * kind) :=
  match c with
  | Oscillator => [("c", KD); ("f", KD)]                                                         (* test_models/Oscillator.h 45-57 *)
  | CoupledOscillators => [("n", KU); ("c0", KD); ("c2", KD); ("f", KD)]                          (* CoupledNonlinearOscillators.h 57-73 *)
  | StiffOde => [("a", KD)]                                                                      (* StiffOde1D.h 43-53 *)
  | SlidingPoint => [("friction", KE ["atan"; "tabular"; "linear"]); ("mass", KD); ("f0", KD); ("v0", KD); ("F1", KD); ("F2", KD); ("omega", KD)] (* SlidingPoint.h 62-86 *)
  | BouncingBall => [("gravity_acceleration", KD); ("recovery_factor", KD); ("stick_speed", KD)]  (* BouncingBall.h 94-108 *)
  | SolverEuler | SolverRK4 => base_solver ++ [eventctl]                                          (* OdeSolverExplicitRK.h 14-25 *)
  | SolverDopri45 | SolverDopri56 | SolverDopri78 => embedded
  | SolverRosW1 => base_solver ++ [jtrim; eventctl; ("d", KD)]                                    (* OdeSolverRosenbrock_W1.h 108-119, _W_base.h 26-30 *)
  | SolverRosSW24 => base_solver ++ [jtrim; enorm; stepsizectl; eventctl; ("d", KD); ("disable_error_check", KB)] (* OdeSolverRosenbrock_SW2_4.h 187-200 *)
  | SolverGragg => base_solver ++ [eventctl; ("smooth", KB)]                                      (* OdeSolverGragg.h 126-137 *)
  | SolverExtrapolator => base_solver ++ [enorm; stepsizectl; eventctl; ("symmetric", KB); ("disable_error_check", KB); ("max_stages", KU);
                                          ("step_sequence", KC ISequence); ("reference_solver", KC ISolver)] (* OdeSolverExtrapolator.h 207-230 *)
  | SolverImplicitEuler => base_solver ++ [algsolver; eventctl; ("alpha", KD); ("predictor", KC ISolver); ("predictor_steps", KU); ("reorder", KC IReordering)] (* OdeSolverImplicitEuler.h 175-196 *)
  | NewtonSolver => [("itperf", KC IIteration); ("regularizer", KC IRegularization); ("max_iterations", KU); ("ddir", KC IDirection);
                     ("jacobian", KC IJacobian); ("jtrim", KC ITrimmer); ("linsearch", KC ILineSearch); ("err", KC IError)] (* NewtonSolverInterface.h 146-227 *)
  | ErrorSimple => [("abs_tol", KD); ("rel_tol", KD); ("abs_max_threshold", KD); ("rel_max_threshold", KD)] (* SimpleErrorEstimator.h 118-134 *)
  | TrimWidth => [("width", KU)]                                                                 (* JacobianWidthBasedTrimmer.h 34-43 *)
  | TrimThreshold => [("threshold", KD)]                                                         (* JacobianThresholdBasedTrimmer.h 42-51 *)
  | DirLazyFakeBroyden => [("lazy_iterations", KU)]                                               (* JacobianLazyFakeBroydenUpdateNewtonDescentDirection.h 99-108 *)
  | StepSizeSimple => [("tolerance", KD); ("insurance", KD); ("inc_min_factor", KD); ("inc_max_factor", KD); ("dec_max_factor", KD); ("max_threshold", KD)] (* OdeStepSizeSimpleController.h 62-82 *)
  | StepMappingEuler => [("h", KD); ("alpha", KD)]                                                (* OdeStepMappingEuler.h 152-166 *)
  | InitSpecified => [("time", KD); ("state", KX)]                                                (* SpecifiedOdeInitState.h 31-51: "size" and "x0", "x1", ... stand for the state *)
  | OutStatistics | OutGeneral => [("file_name", KT)]                                             (* ode_solver_output.h 46-56 *)
  | OutSolution => [("file_name", KT); ("size_half_lim", KU)]                                     (* ode_solver_output.h 384-395 *)
  | OutColumnwise => [("file_name", KT); ("max_steps", KU)]                                       (* ode_solver_output.h 514-525 *)
  | Root => [("rhs", KC IRhs); ("solver", KC ISolver); ("reference_solver", KC ISolver); ("time", KD); ("output_timing", KD); ("simout_basename", KT);
             ("output_stats", KC IOutput); ("output_con", KC IOutput); ("output_file", KC IOutput); ("init_state", KC IInit)] (* OdeSolverConfiguration.h 115-143 *)
  | IterationPerformer | JacobianDefault | JacobianSparse | DirSimple | DirBroyden | DirFakeBroyden | DirHart | DirConst | LineSearchSimple
  | EventLinear | NormInf | SeqRomberg | SeqBulirsch | SeqHarmonic => []                          (* OptionalParameters.h 247-253 *)
  end.

Section Pers.
Context {real : Type} (zero : real) (lit : Z -> Z -> real) (fmt : real -> string) (stod : string -> Outcome real).
(** * Objects *)
Inductive comp := Comp (c : cls) (fs : list (string * fval))
with fval := FD (x : real) | FU (z : Z) | FB (b : bool) | FT (s : string) | FC (t : option comp) | FX (x : list real).
Definition fields := list (string * fval).
Definition class_of (t : comp) : cls := let (c, _) := t in c.
Definition fields_of (t : comp) : fields := let (_, fs) := t in fs.
Fixpoint fget (n : string) (fs : fields) : option fval :=
  match fs with [] => None | (m, v) :: t => if String.eqb n m then Some v else fget n t end.
Fixpoint fput (n : string) (v : fval) (fs : fields) : fields :=
  match fs with [] => [] | (m, w) :: t => if String.eqb n m then (m, v) :: t else (m, w) :: fput n v t end.
(** the pointer in a field is null *)
Definition is_null (n : string) (fs : fields) : bool := match fget n fs with Some (FC (Some _)) => false | _ => true end.

(** * The process: what the factory creates for an id, and the id of a class *)
Record registry := mkReg { r_new : ifc -> string -> option cls; r_id : cls -> string }.
Context (r : registry).

(** ** Constructors *)
(** default values of the fields that are not components made by the factory: the constructors of the classes *)
Definition fresh (c : cls) : fields :=
  let solver := [("h_init", FD (lit 1 100)); ("h_min", FD (lit 1 10000000000000000))] in
  let adaptive := [("enorm", FC None); ("stepsizectl", FC None); ("eventctl", FC None)] in
  match c with
  | Oscillator => [("c", FD (lit 1000 1)); ("f", FD (lit 100 1))]                                   (* Oscillator.h 23 *)
  | CoupledOscillators => [("n", FU 10); ("c0", FD (lit 1000 1)); ("c2", FD (lit 1000 1)); ("f", FD (lit 100 1))] (* CoupledNonlinearOscillators.h 23 *)
  | StiffOde => [("a", FD (lit 50 1))]                                                                (* StiffOde1D.h 23 *)
  | SlidingPoint => [("friction", FT "atan"); ("mass", FD (lit 1 1)); ("f0", FD (lit 1 1)); ("v0", FD (lit 1 1)); ("F1", FD (lit 10 1)); ("F2", FD (lit 10 1)); ("omega", FD (lit 100 1))]
  | BouncingBall => [("gravity_acceleration", FD (lit 98 10)); ("recovery_factor", FD (lit 9 10)); ("stick_speed", FD (lit 1 100000))]
  | SolverEuler | SolverRK4 => solver ++ [("eventctl", FC None)]
  | SolverDopri45 | SolverDopri56 | SolverDopri78 =>
      solver ++ adaptive ++ [("disable_error_check", FB false); ("force_error_calc", FB false); ("h_after_switch", FD (lit 0 1)); ("mode", FT "low")]
  | SolverRosW1 => solver ++ [("jtrim", FC None); ("eventctl", FC None); ("d", FD (lit 1 1))]
  | SolverRosSW24 => solver ++ [("jtrim", FC None)] ++ adaptive ++ [("d", FD (lit 1 1)); ("disable_error_check", FB false)]
  | SolverGragg => solver ++ [("eventctl", FC None); ("smooth", FB false)]
  | SolverExtrapolator => solver ++ adaptive ++ [("symmetric", FB false); ("disable_error_check", FB false); ("max_stages", FU 4); ("step_sequence", FC None); ("reference_solver", FC None)]
  | SolverImplicitEuler => solver ++ [("algsolver", FC None); ("eventctl", FC None); ("alpha", FD (lit 1 1)); ("predictor", FC None); ("predictor_steps", FU 1); ("reorder", FC None)]
  | NewtonSolver => [("itperf", FC None); ("regularizer", FC None); ("max_iterations", FU 100); ("ddir", FC None); ("jacobian", FC None); ("jtrim", FC None); ("linsearch", FC None); ("err", FC None)]
  | ErrorSimple => [("abs_tol", FD (lit 1 1000000)); ("rel_tol", FD (lit 1 1000000)); ("abs_max_threshold", FD (lit 100000000000000000000 1)); ("rel_max_threshold", FD (lit 10 1))]
  | TrimWidth => [("width", FU 0)]
  | TrimThreshold => [("threshold", FD (lit 0 1))]
  | DirLazyFakeBroyden => [("lazy_iterations", FU 10)]
  | StepSizeSimple => [("tolerance", FD (lit 1 1000000)); ("insurance", FD (lit 8 10)); ("inc_min_factor", FD (lit 13 10)); ("inc_max_factor", FD (lit 2 1)); ("dec_max_factor", FD (lit 1 10)); ("max_threshold", FD (lit 0 1))]
  | StepMappingEuler => [("h", FD (lit 1 10)); ("alpha", FD (lit 1 1))]
  | InitSpecified => [("time", FD zero); ("state", FX [])]
  | OutStatistics | OutGeneral => [("file_name", FT "")]
  | OutSolution => [("file_name", FT ""); ("size_half_lim", FU 5)]
  | OutColumnwise => [("file_name", FT ""); ("max_steps", FU 10)]
  | Root => [("rhs", FC None); ("solver", FC None); ("reference_solver", FC None); ("time", FD (lit 1 1000)); ("output_timing", FD (lit 0 1)); ("simout_basename", FT "");
             ("output_stats", FC None); ("output_con", FC None); ("output_file", FC None); ("init_state", FC None)]
  | _ => []
  end.
(** Constructors without factory parts; the NewtonSolver makes its parts directly, NewtonSolver.h 26-34 *)
Definition make_plain (c : cls) : comp :=
  let leaf c := FC (Some (Comp c (fresh c))) in
  match c with
  | NewtonSolver => Comp c (fput "itperf" (leaf IterationPerformer) (fput "err" (leaf ErrorSimple) (fput "ddir" (leaf DirSimple)
                           (fput "linsearch" (leaf LineSearchSimple) (fput "jacobian" (leaf JacobianDefault) (fresh c))))))
  | _ => Comp c (fresh c)
  end.
(** Parts made by the factory in the constructors: OdeSolverExplicitRK.h 25, OdeSolverExplicitEmbeddedRK.h 34-36, OdeSolverRosenbrock_W1.h 24,
    OdeSolverRosenbrock_SW2_4.h 28-30, OdeSolverGragg.h 24, OdeSolverExtrapolator.h 30-32, OdeSolverImplicitEuler.h 27-28 *)
Definition parts (c : cls) : list (string * ifc * string) :=
  let ev := ("eventctl", IEvent, "linear") in
  match c with
  | SolverEuler | SolverRK4 | SolverRosW1 | SolverGragg => [ev]
  | SolverDopri45 | SolverDopri56 | SolverDopri78 | SolverRosSW24 | SolverExtrapolator => [("enorm", INorm, "inf"); ("stepsizectl", IStepSize, "simple"); ev]
  | SolverImplicitEuler => [("algsolver", INewton, "newton"); ev]
  | _ => []
  end.
(** Factory::newInstance for a part: Factory.h 111-118 *)
Definition make_part (i : ifc) (id : string) : Outcome comp := match r_new r i id with None => Throw | Some c => Ret (make_plain c) end.
Fixpoint add_parts (ps : list (string * ifc * string)) (fs : fields) : Outcome fields :=
  match ps with [] => Ret fs | (n, i, id) :: t => p <- make_part i id ;; add_parts t (fput n (FC (Some p)) fs) end.
(** std::make_shared< Type >(): Factory.h 182-184 *)
Definition make (c : cls) : Outcome comp := match make_plain c with Comp c fs => fs' <- add_parts (parts c) fs ;; Ret (Comp c fs') end.

(** ** parameters() *)
(** NewtonSolverInterface.h 153-162: which parameters are shown *)
Definition shown (c : cls) (fs : fields) (n : string) : bool :=
  match c with
  | NewtonSolver =>
      if existsb (String.eqb n) ["ddir"; "linsearch"; "err"] then negb (is_null "itperf" fs)
      else if existsb (String.eqb n) ["jacobian"; "jtrim"] then negb (is_null "itperf" fs) && negb (is_null "ddir" fs)
      else true
  | _ => true
  end.
(** NewtonSolverInterface.h 156-158: jacobianProvider() is not checked before jacobianTrimmer() is taken from it *)
Definition save_defined (c : cls) (fs : fields) : bool :=
  match c with NewtonSolver => is_null "itperf" fs || is_null "ddir" fs || negb (is_null "jacobian" fs) | _ => true end.
(** the text of a value: OptionalParameters.h 147-149 *)
Definition text_of (v : pval) : string := let (s, _) := v in s.
(** a text value as the parameter tree of CfgModel.v *)
Definition leaf_value (v : pvalue) : pval := PV (v_text v) None.
(** parameters() of a specified initial state: InitModel.v *)
Definition init_values (fs : fields) : params :=
  match fs with
  | [(_, FD t); (_, FX x)] => map (fun kv => (fst kv, leaf_value (snd kv))) (is_params fmt (mkIst t x))
  | _ => []
  end.
(** parameters(); Value( shared_ptr ): OptionalParameters.h 391-400 *)
Fixpoint save (t : comp) : Outcome params :=
  match t with
  | Comp c fs =>
      match c with
      | InitSpecified => Ret (init_values fs)
      | _ => if save_defined c fs then
          (fix go (l : fields) (acc : params) : Outcome params :=
             match l with
             | [] => Ret acc
             | (n, v) :: l' =>
                 if shown c fs n then
                   w <- match v with
                        | FD x => Ret (leaf_value (Value_double fmt x))
                        | FU z => Ret (leaf_value (Value_unsigned z))
                        | FB b => Ret (leaf_value (Value_bool b))
                        | FT s => Ret (PV s None)
                        | FX _ => Ret (PV "" None)
                        | FC None => Ret (PV "" None)
                        | FC (Some t') => if has_parameters (class_of t') then ps <- save t' ;; Ret (PV (r_id r (class_of t')) (Some ps)) else Ret (PV (r_id r (class_of t')) None)
                        end ;;
                   go l' (mput TOstr n w acc)
                 else go l' acc
             end) fs []
          else UB
      end
  end.
Definition to_value (o : option comp) : Outcome pval :=
  match o with
  | None => Ret (PV "" None)
  | Some t => if has_parameters (class_of t) then ps <- save t ;; Ret (PV (r_id r (class_of t)) (Some ps)) else Ret (PV (r_id r (class_of t)) None)
  end.

(** ** setParameters() *)
(** A value of a parameter set: its text, and value< shared_ptr<I> >() for every interface I. *)
Definition decoder : Type := (string * (ifc -> Outcome (option comp)))%type.
(** value< T >(): OptionalParameters.h 147-180; the texts of an enumeration are checked by the setter, OdeSolverExplicitEmbeddedRK.h 169-176, SlidingPoint.h 146-170 *)
Definition convert (k : kind) (d : decoder) : Outcome fval :=
  match k with
  | KD => x <- to_double stod (mkV (fst d) None) ;; Ret (FD x)
  | KU => z <- to_unsigned (mkV (fst d) None) ;; Ret (FU z)
  | KB => b <- to_bool (mkV (fst d) None) ;; Ret (FB b)
  | KT => Ret (FT (fst d))
  | KE l => if existsb (String.eqb (fst d)) l then Ret (FT (fst d)) else Throw
  | KC i => o <- snd d i ;; Ret (FC o)
  | KX => Throw
  end.
(** The Newton solver of an implicit Euler solver receives the mapping: NewtonSolverInterface.h 66-75, OdeSolverImplicitEuler.h 33-40 and 169-172 *)
Definition takes_mapping (o : option fval) : bool :=
  match o with
  | Some (FC (Some (Comp _ fs))) => is_null "itperf" fs || (negb (is_null "ddir" fs) && negb (is_null "linsearch" fs))
  | _ => false
  end.
(** The setter of a parameter with the observers it runs. *)
Definition set_field (c : cls) (n : string) (v : fval) (fs : fields) : Outcome fields :=
  let null := match v with FC None => true | _ => false end in
  let gone := fold_left (fun fs m => fput m (FC None) fs) in
  match c with
  | NewtonSolver =>
      if String.eqb n "itperf" then Ret (gone ["ddir"; "jacobian"; "jtrim"; "linsearch"; "err"] (fput n v fs))   (* the parts belong to the performer *)
      else if String.eqb n "ddir" then Ret (gone ["jacobian"; "jtrim"] (fput n v fs))
      else if String.eqb n "jacobian" then Ret (gone ["jtrim"] (fput n v fs))
      else if String.eqb n "linsearch" then (if null then UB else Ret (fput n v fs))                              (* NewtonSolverInterface.h 213 *)
      else Ret (fput n v fs)
  | SolverImplicitEuler =>
      if String.eqb n "algsolver" then (if takes_mapping (Some v) then Ret (fput n v fs) else UB)
      else if String.eqb n "reorder" then (if takes_mapping (fget "algsolver" fs) then Ret (fput n v fs) else UB)
      else Ret (fput n v fs)
  | _ => if String.eqb n "enorm" then (if null then UB else Ret (fput n v fs))                                    (* OdeSolverErrorNormCalculator.h 23-26 *)
         else Ret (fput n v fs)
  end.
(** the parameter is looked at: NewtonSolverInterface.h 185, 198, 203 *)
Definition looked_at (c : cls) (fs : fields) (n : string) : bool :=
  shown c fs n && match c with NewtonSolver => if String.eqb n "jtrim" then negb (is_null "jacobian" fs) else true | _ => true end.
(** maybeSetParameter, maybeLoadParameter: OptionalParameters.h 281-306; fields set before an exception stay set *)
Fixpoint load_fields (c : cls) (sch : list (string * kind)) (ds : list (string * decoder)) (fs : fields) : fields * Outcome unit :=
  match sch with
  | [] => (fs, Ret tt)
  | (n, k) :: t =>
      if looked_at c fs n then
        match mfind TOstr n ds with
        | None => load_fields c t ds fs
        | Some d => match (v <- convert k d ;; set_field c n v fs) with
                    | Ret fs' => load_fields c t ds fs'
                    | Throw => (fs, Throw)
                    | UB => (fs, UB)
                    end
        end
      else load_fields c t ds fs
  end.
(** setParameters() of a specified initial state: InitModel.v *)
Definition load_init (ds : list (string * decoder)) (fs : fields) : fields * Outcome unit :=
  match fs with
  | [(n, FD t); (m, FX x)] => let (s, o) := is_set zero stod (map (fun kv => (fst kv, mkV (fst (snd kv)) None)) ds) (mkIst t x) in ([(n, FD (is_time s)); (m, FX (is_x s))], o)
  | _ => (fs, Ret tt)
  end.
(** setParameters(): the object afterwards, and how the call ended *)
Definition load (ds : list (string * decoder)) (t : comp) : comp * Outcome unit :=
  match t with
  | Comp InitSpecified fs => let (fs', o) := load_init ds fs in (Comp InitSpecified fs', o)
  | Comp c fs => let (fs', o) := load_fields c (schema c) ds fs in (Comp c fs', o)
  end.
Definition finished (p : comp * Outcome unit) : Outcome (option comp) :=
  match snd p with Ret _ => Ret (Some (fst p)) | Throw => Throw | UB => UB end.
(** value< shared_ptr<I> >(): OptionalParameters.h 402-416 *)
Fixpoint from_value (v : pval) (i : ifc) : Outcome (option comp) :=
  match v with
  | PV s nested =>
      if String.eqb s "" then Ret None
      else match r_new r i s with
           | None => Throw
           | Some c =>
               t0 <- make c ;;
               match nested with
               | None => Ret (Some t0)
               | Some ps => if has_parameters c then finished (load (map (fun kv : string * pval => (fst kv, (text_of (snd kv), from_value (snd kv)))) ps) t0) else Ret (Some t0)
               end
           end
  end.
(** The values of a parameter set as decoders; setParameters() with a parameter set. *)
Definition decoders (ps : params) : list (string * decoder) := map (fun kv : string * pval => (fst kv, (text_of (snd kv), from_value (snd kv)))) ps.
Definition setParameters (ps : params) (t : comp) : comp * Outcome unit := load (decoders ps) t.
End Pers.
Arguments Comp {real} c fs.
Arguments FD {real} x.
Arguments FU {real} z.
Arguments FB {real} b.
Arguments FT {real} s.
Arguments FC {real} t.
Arguments FX {real} x.

(** * The library's registrations *)
Definition all_classes : list cls :=
  [Oscillator; CoupledOscillators; StiffOde; SlidingPoint; BouncingBall;
   SolverEuler; SolverRK4; SolverDopri45; SolverDopri56; SolverDopri78; SolverRosW1; SolverRosSW24; SolverGragg; SolverExtrapolator; SolverImplicitEuler;
   NewtonSolver; IterationPerformer; JacobianDefault; JacobianSparse; ErrorSimple; TrimWidth; TrimThreshold;
   DirSimple; DirBroyden; DirFakeBroyden; DirLazyFakeBroyden; DirHart; DirConst; LineSearchSimple;
   EventLinear; NormInf; StepSizeSimple; StepMappingEuler; InitSpecified; OutStatistics; OutGeneral; OutSolution; OutColumnwise;
   SeqRomberg; SeqBulirsch; SeqHarmonic].
(** typeid names of the factory classes and mixins, given by the compiler *)
Record naming := mkNaming { n_iface : ifc -> iface; n_impl : cls -> impl }.
(** The registrators of the library: one registration per class *)
Definition registrations (nm : naming) : list fop :=
  flat_map (fun c => match interface_of c with Some i => [OReg (n_iface nm i) (n_impl nm c) (library_id c)] | None => [] end) all_classes.
(** What the factories answer in a process whose storage is [st].  Simplification: a class that is not the library's own (registered by the user)
    counts as not found, since its parameters are not known. *)
Definition impl_same (a b : impl) : bool := String.eqb (c_cls a) (c_cls b) && String.eqb (FacModel.c_str a) (FacModel.c_str b).
Definition class_named (nm : naming) (x : impl) : option cls := find (fun c => impl_same (n_impl nm c) x) all_classes.
Definition process (nm : naming) (st : storage) : registry :=
  mkReg (fun i id => match newInstance st (n_iface nm i) id with Ret y => class_named nm (snd y) | _ => None end)
        (fun c => match typeIdOf st (n_impl nm c) with Ret y => snd y | _ => "" end).
