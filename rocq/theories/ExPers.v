(** ExPers.v - examples and refutations for C76.  Numbers are integers printed in decimal. *)
From Coq Require Import List Arith Bool ZArith String Permutation Lia.
From Verif Require Import Base SMap FacModel FacSpec ParModel CfgModel InitModel InitSpec PersModel PersSpec PropPers.
Import ListNotations.
Local Open Scope string_scope.
Local Open Scope list_scope.

(** A naming as a compiler could choose it *)
Definition iface_name (i : ifc) : string :=
  match i with IRhs => "a" | ISolver => "b" | INewton => "c" | IIteration => "d" | IRegularization => "e" | IDirection => "f" | IJacobian => "g" | ITrimmer => "h" | ILineSearch => "i" | IError => "j"
  | IStepSize => "k" | INorm => "l" | IEvent => "m" | ISequence => "n" | IInit => "o" | IOutput => "p" | IStepMapping => "q" | IReordering => "r" end.
Definition class_name (c : cls) : string := match interface_of c with Some i => iface_name i ++ library_id c | None => "" end%string.
Definition names : naming := mkNaming (fun i => mkIface ("Factory<" ++ iface_name i ++ ">") "Registry") (fun c => mkImpl ("FactoryMixin<" ++ class_name c ++ ">") "TypeId").
Definition all_ifc : list ifc := [IRhs; ISolver; INewton; IIteration; IRegularization; IDirection; IJacobian; ITrimmer; ILineSearch; IError; IStepSize; INorm; IEvent; ISequence; IInit; IOutput; IStepMapping; IReordering].
Lemma class_back c : find (fun d => impl_same (n_impl names d) (n_impl names c)) (Root :: all_classes) = Some c.
Proof. destruct c; vm_compute; reflexivity. Qed.
Lemma iface_back i : find (fun j => String.eqb (iface_name j) (iface_name i)) all_ifc = Some i.
Proof. destruct i; vm_compute; reflexivity. Qed.
Example names_good : good_naming names.
Proof.
  split; [intros i; destruct i; cbn; repeat split; discriminate|]. split; [intros c; destruct c; cbn; repeat split; discriminate|].
  split; [intros i j H; assert (E : iface_name i = iface_name j) by (destruct i; destruct j; first [reflexivity | discriminate H]); pose proof (iface_back i) as A; rewrite E, iface_back in A; congruence|].
  split; [intros c d H; pose proof (class_back c) as A; rewrite H, class_back in A; congruence|].
  intros i c H. cbn in H. discriminate H.
Qed.
Example the_library : exists st, runs_library names (registrations names) st /\ runs_library names (rev (registrations names)) st.
Proof.
  destruct (C76_any_order names (registrations names) names_good (Permutation_refl _)) as (st & A).
  destruct (C76_any_order names (rev (registrations names)) names_good (Permutation_sym (Permutation_rev _))) as (st' & B).
  exists st. split; [exact A|]. replace st with st'; [exact B|].
  assert (X : frun (registrations names) = frun (rev (registrations names))) by (vm_compute; reflexivity).
  destruct A as (_ & _ & _ & _ & _ & _ & A). destruct B as (_ & _ & _ & _ & _ & _ & B). congruence.
Qed.
(** the answers of its factories *)
Definition lib : registry :=
  mkReg (fun i id => find (fun c => match interface_of c with Some j => String.eqb (iface_name i) (iface_name j) && String.eqb (library_id c) id | None => false end) all_classes) library_id.
Lemma lib_knows : knows_library lib.
Proof. intros c i H. split; [|reflexivity]. destruct c; try discriminate H; injection H as <-; reflexivity. Qed.
Lemma lib_typed : well_typed lib.
Proof.
  intros i s c H. cbn [lib r_new] in H. apply find_some in H. destruct H as [_ H]. destruct (interface_of c) as [j|]; [|discriminate]. apply andb_prop in H. destruct H as [H _]. apply String.eqb_eq in H.
  f_equal. destruct i; destruct j; first [reflexivity | discriminate H].
Qed.

Definition zfmt (z : Z) : string := to_string_Z z.
Definition zlit (a b : Z) : Z := 1%Z.
Definition zread (s : string) : Outcome Z := stoi (c_str s).
Lemma zread_defined s : zread s <> UB.
Proof. unfold zread, stoi. destruct (scan_int _) as [(b, m)|]; [|discriminate]. repeat match goal with |- context [if ?b then _ else _] => destruct b end; discriminate. Qed.
Notation made c := (match make 0%Z zlit lib c with Ret t => t | _ => Comp c [] end).
(** An implicit Euler solver with a Newton solver of Broyden type on a sparse Jacobian, trimmed, and an adaptive predictor. *)
Definition newton_part (o : option comp) : comp :=
  Comp NewtonSolver [("itperf", FC (Some (made IterationPerformer))); ("regularizer", FC None); ("max_iterations", FU 7); ("ddir", FC (Some (Comp DirLazyFakeBroyden [("lazy_iterations", FU 3)])));
    ("jacobian", FC (Some (made JacobianSparse))); ("jtrim", FC o); ("linsearch", FC (Some (made LineSearchSimple))); ("err", FC None)].
Definition a_solver : comp :=
  Comp SolverImplicitEuler [("h_init", FD 5%Z); ("h_min", FD 2%Z); ("algsolver", FC (Some (newton_part (Some (Comp TrimWidth [("width", FU 12)]))))); ("eventctl", FC None);
    ("alpha", FD (-3)%Z); ("predictor", FC (Some (made SolverDopri45))); ("predictor_steps", FU 4); ("reorder", FC None)].
Lemma one_survives : survives zfmt zread 1%Z. Proof. vm_compute. reflexivity. Qed.
Lemma zero_survives : survives zfmt zread 0%Z. Proof. vm_compute. reflexivity. Qed.
Lemma made_valid c : valid zfmt zread (made c).
Proof.
  destruct (make 0%Z zlit lib c) as [t| |] eqn:E.
  - apply (C76_fresh Z 0%Z zlit zfmt zread lib c t lib_knows (fun _ _ => one_survives) zero_survives E).
  - exfalso. destruct c; discriminate E.
  - exfalso. destruct c; discriminate E.
Qed.
Lemma unsigned_valid z : (0 <=? z)%Z && (z <? 4294967296)%Z = true -> valid_value zfmt zread KU (FU z).
Proof. intros H. apply andb_prop in H. destruct H as [H1 H2]. apply Z.leb_le in H1. apply Z.ltb_lt in H2. apply V_unsigned. split; assumption. Qed.
Ltac field := first [apply unsigned_valid; reflexivity | apply V_null | apply V_real; vm_compute; reflexivity].
Example newton_valid : valid zfmt zread (newton_part (Some (Comp TrimWidth [("width", FU 12)]))).
Proof.
  apply V_comp.
  - apply V_cons; [apply V_part; [reflexivity|apply made_valid]|]. apply V_cons; [field|]. apply V_cons; [field|].
    apply V_cons; [apply V_part; [reflexivity|apply V_comp; [apply V_cons; [field|apply V_nil]|exact I]]|].
    apply V_cons; [apply V_part; [reflexivity|apply made_valid]|]. apply V_cons; [apply V_part; [reflexivity|apply V_comp; [apply V_cons; [field|apply V_nil]|exact I]]|].
    apply V_cons; [apply V_part; [reflexivity|apply made_valid]|]. apply V_cons; [field|]. apply V_nil.
  - cbn. intuition discriminate.
Qed.
Example a_solver_valid : valid zfmt zread a_solver.
Proof.
  apply V_comp.
  - apply V_cons; [field|]. apply V_cons; [field|]. apply V_cons; [apply V_part; [reflexivity|exact newton_valid]|]. apply V_cons; [field|]. apply V_cons; [field|].
    apply V_cons; [apply V_part; [reflexivity|apply made_valid]|]. apply V_cons; [field|]. apply V_cons; [field|]. apply V_nil.
  - cbn. reflexivity.
Qed.
Example C76_example : exists v, to_value zfmt lib (Some a_solver) = Ret v /\ from_value 0%Z zlit zread lib v ISolver = Ret (Some a_solver) /\ text_of v = "i_euler".
Proof. destruct (C76_round_trip Z 0%Z zlit zfmt zread lib lib a_solver ISolver lib_knows lib_knows a_solver_valid eq_refl) as (v & E1 & E2 & E3). exists v. auto. Qed.
(** restoring a whole configuration over another one *)
Example C76_example_restore : exists ps, save zfmt lib (Comp Root [("rhs", FC (Some (Comp BouncingBall [("gravity_acceleration", FD 9%Z); ("recovery_factor", FD 8%Z); ("stick_speed", FD 7%Z)]))); ("solver", FC (Some a_solver)); ("reference_solver", FC None); ("time", FD 6%Z);
    ("output_timing", FD 5%Z); ("simout_basename", FT "run"); ("output_stats", FC None); ("output_con", FC (Some (Comp OutSolution [("file_name", FT "a.txt"); ("size_half_lim", FU 3)]))); ("output_file", FC None);
    ("init_state", FC (Some (Comp InitSpecified [("time", FD 1%Z); ("state", FX [4%Z; 5%Z])])))]) = Ret ps /\
  fst (setParameters 0%Z zlit zread lib ps (made Root)) = Comp Root [("rhs", FC (Some (Comp BouncingBall [("gravity_acceleration", FD 9%Z); ("recovery_factor", FD 8%Z); ("stick_speed", FD 7%Z)]))); ("solver", FC (Some a_solver)); ("reference_solver", FC None); ("time", FD 6%Z);
    ("output_timing", FD 5%Z); ("simout_basename", FT "run"); ("output_stats", FC None); ("output_con", FC (Some (Comp OutSolution [("file_name", FT "a.txt"); ("size_half_lim", FU 3)]))); ("output_file", FC None);
    ("init_state", FC (Some (Comp InitSpecified [("time", FD 1%Z); ("state", FX [4%Z; 5%Z])])))].
Proof. eexists. split; [vm_compute; reflexivity|vm_compute; reflexivity]. Qed.
(** a complete tree *)
Example C76_example_complete : complete (PV "i_euler" (Some [("algsolver", PV "newton" (Some [("ddir", PV "hart" None); ("itperf", PV "default" None); ("linsearch", PV "simple" None)])); ("h_init", PV "what" None)])).
Proof. repeat (constructor; cbn; try intuition discriminate). all: eexists; (split; [reflexivity|discriminate]). Qed.
(** * Findings *)
(** C76: an exception leaves the parameters before it set. *)
Theorem C76_not_atomic_refuted : exists (ps : params) (t t' : comp), setParameters 0%Z zlit zread lib ps t = (t', Throw) /\ t' <> t.
Proof.
  exists [("c", PV "7" None); ("f", PV "oops" None)], (Comp Oscillator [("c", FD 1%Z); ("f", FD 1%Z)]), (Comp Oscillator [("c", FD 7%Z); ("f", FD 1%Z)]). split; [vm_compute; reflexivity|discriminate].
Qed.
Print Assumptions C76_not_atomic_refuted.
(** C76: giving the Newton solver of i_euler just the (default) iteration performer is undefined behaviour. *)
Theorem C76_performer_alone_refuted : exists v, from_value 0%Z zlit zread lib v ISolver = UB /\ v = PV "i_euler" (Some [("algsolver", PV "newton" (Some [("itperf", PV "default" None)]))]).
Proof. eexists. split; [|reflexivity]. vm_compute. reflexivity. Qed.
Print Assumptions C76_performer_alone_refuted.
(** C76: a Newton solver without line search can be saved, but what is saved cannot be loaded. *)
Theorem C76_no_line_search_refuted : exists t v, setParameters 0%Z zlit zread lib [("itperf", PV "default" None)] (made NewtonSolver) = (t, Ret tt) /\ to_value zfmt lib (Some t) = Ret v /\ from_value 0%Z zlit zread lib v INewton = UB.
Proof. eexists. eexists. split; [vm_compute; reflexivity|]. split; [vm_compute; reflexivity|vm_compute; reflexivity]. Qed.
Print Assumptions C76_no_line_search_refuted.
(** C76: a Newton solver without Jacobian provider cannot be saved. *)
Theorem C76_no_jacobian_refuted : exists t, setParameters 0%Z zlit zread lib [("jacobian", PV "" None)] (made NewtonSolver) = (t, Ret tt) /\ to_value zfmt lib (Some t) = UB.
Proof. eexists. split; [vm_compute; reflexivity|vm_compute; reflexivity]. Qed.
Print Assumptions C76_no_jacobian_refuted.
(** C76: an empty text for the error norm is undefined behaviour. *)
Theorem C76_no_norm_refuted : from_value 0%Z zlit zread lib (PV "dopri_45" (Some [("enorm", PV "" None)])) ISolver = UB.
Proof. vm_compute. reflexivity. Qed.
Print Assumptions C76_no_norm_refuted.
(** C76: a direction of a Newton solver that is replaced takes its Jacobian provider and trimmer with it. *)
Theorem C76_direction_resets_refuted : exists t, setParameters 0%Z zlit zread lib [("ddir", PV "hart" None)] (newton_part None) = (t, Ret tt) /\ is_null "jacobian" (fields_of t) = true /\ is_null "jacobian" (fields_of (newton_part None)) = false.
Proof. eexists. split; [vm_compute; reflexivity|]. split; [vm_compute; reflexivity|vm_compute; reflexivity]. Qed.
Print Assumptions C76_direction_resets_refuted.
