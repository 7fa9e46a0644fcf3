(** ImpModel.v - the implicit alpha method.
    Models /repo/include/ode_num_int/ode/OdeStepMappingEuler.h and OdeSolverImplicitEuler.h.
    Simplifications: observers of the mapping and of the solver get no say (they are called at 45, 68 of the first file and 81, 145 of
    the second); timing statistics are not modelled. *)
From Coq Require Import List Arith Bool ZArith.
From Verif Require Import Base VecModel VOps MapModel NewtModel RkModel ExtModel.
Import ListNotations.
Local Open Scope nat_scope.

Section Imp.
Context (N : Num).
Notation T := (nT N).
Notation vec := (list T).

(** V( v.block( from, count ) ): VectorTemplate.h 96-100, 140-160; iterators, so a block reaching past the end is undefined. *)
Definition lblk (from count : nat) (v : vec) : Outcome vec :=
  if from + count <=? length v then Ret (firstn count (skipn from v)) else UB.

(** * OdeStepMappingEuler.h 168-174 *)
Record emap : Type := mkEM { em_alpha : T; em_h : T; em_t : T; em_x : vec; em_f0 : vec; em_valid : bool }.
Section Map.
Context (nd nf : nat).       (* secondOrderVarCount, firstOrderVarCount of the right-hand side *)
(** setInitialState 88-93, setTimeStep 99-104, setImplicitnessParameter 146-150 *)
Definition em_setState (t : T) (x : vec) (m : emap) : emap := mkEM (em_alpha m) (em_h m) t x (em_f0 m) false.
Definition em_setStep (h : T) (m : emap) : emap := mkEM (em_alpha m) h (em_t m) (em_x m) (em_f0 m) false.
Definition em_setAlpha (a : T) (m : emap) : emap := mkEM a (em_h m) (em_t m) (em_x m) (em_f0 m) false.
(** expandState 176-191.  Simplification: an equation state x of the wrong size, which the last assignment would copy past the end of the
    destination (or leave part of it unset), is undefined. *)
Definition em_expand (m : emap) (x : vec) : Outcome vec :=
  if negb (length x =? nd + nf) then UB else
  u0 <- lblk 0 nd (em_x m) ;;
  u1 <- ladd u0 (lscale (skipn nd (em_x m)) (nmul N (em_h m) (nsub N (n1 N) (em_alpha m)))) ;;
  u2 <- ladd u1 (lscale x (nmul N (em_h m) (em_alpha m))) ;;
  Ret (u2 ++ x).
(** computeF0Scaled 193-200 *)
Definition em_prepare (f : T -> vec -> Outcome vec) (m : emap) : Outcome emap :=
  if em_valid m then Ret m else
  k <- f (em_t m) (em_x m) ;;
  Ret (mkEM (em_alpha m) (em_h m) (em_t m) (em_x m) (lscale k (nmul N (nopp N (em_h m)) (nsub N (n1 N) (em_alpha m)))) true).
(** map 42-69 *)
Definition em_map (f : T -> vec -> Outcome vec) (x : vec) (m : emap) : Outcome (vec * emap) :=
  m1 <- em_prepare f m ;;
  st <- em_expand m1 x ;;
  k <- f (nadd N (em_t m1) (em_h m1)) st ;;
  d1 <- lsub x (skipn nd (em_x m1)) ;;
  d2 <- ladd d1 (skipn nd (em_f0 m1)) ;;
  d3 <- ladd d2 (lscale (skipn nd k) (nmul N (nopp N (em_h m1)) (em_alpha m1))) ;;
  Ret (d3, m1).
(** computeEqnState 125-131; eqnInitialState 106-112 is this at the initial state.  computeOdeState 114-119 is em_expand. *)
Definition em_eqn (x : vec) : Outcome vec := lblk nd (nd + nf) x.

(** The mapping as the Newton solver sees it: a function of x (C40_cache: what the cache holds makes no difference). *)
Definition em_vmapping (f : T -> vec -> Outcome vec) (m : emap) : vmapping N :=
  mkMap (nd + nf) (nd + nf) (fun x => r <- em_map f x m ;; Ret (fst r)).
End Map.

(** * OdeSolverImplicitEuler.h *)
(** newtonSolver(): NewtonSolverInterface.h 35-37; run works on the mapping installed by setComponent.  nw_reset: reset( true ) of the descent
    direction. *)
Record newton (S : Type) : Type := mkNewton {
  nw_guess : vec -> bool -> S -> Outcome S;
  nw_run : vmapping N -> S -> Outcome (S * nstatus);
  nw_sol : S -> vec;
  nw_reset : S -> S }.
Arguments nw_guess {S} _ _ _ _.
Arguments nw_run {S} _ _ _.
Arguments nw_sol {S} _ _.
Arguments nw_reset {S} _ _.
(** Solver object 214-222.  i_ord: the input and output orderings of m_reorder, if set; i_pred: m_predictor, if set: it is given the step
    size, the start time and state and the number of steps, may act on the model's state, and returns its final state. *)
Record icfg (W P : Type) : Type := mkIcfg {
  ic_h : T;                                                                    (* initialStepSize *)
  ic_nd : nat; ic_nf : nat;
  ic_rhs : W -> T -> vec -> Outcome vec;
  ic_before : T -> vec -> W -> Outcome W;                                      (* rhs->beforeStep *)
  ic_ord : option (list nat * list nat);
  ic_pred : option (T -> T -> vec -> nat -> P * W -> Outcome (vec * (P * W)));
  ic_psteps : nat }.
Arguments ic_h {W P} _.
Arguments ic_nd {W P} _.
Arguments ic_nf {W P} _.
Arguments ic_rhs {W P} _ _ _ _.
Arguments ic_before {W P} _ _ _ _.
Arguments ic_ord {W P} _.
Arguments ic_pred {W P} _.
Arguments ic_psteps {W P} _.
Record ist (W P S : Type) : Type := mkI { i_map : emap; i_hard : bool; i_nw : S; i_pr : P; i_w : W }.
Arguments mkI {W P S} _ _ _ _ _.
Arguments i_map {W P S} _.
Arguments i_hard {W P S} _.
Arguments i_nw {W P S} _.
Arguments i_pr {W P S} _.
Arguments i_w {W P S} _.
Inductive ires : Type := IDone (a : postarg N) | IFailed (st : nstatus) | IThrow | IUb.

Section Solver.
Context {W P S : Type} (ev : events N W) (nw : newton S) (c : icfg W P).
Notation st := (ist W P S).
(** setInitialState 71-76 (the event controller is not reset) *)
Definition i_set (t : T) (x : vec) (soft : bool) (s : st) : st :=
  mkI (em_setState t x (i_map s)) (if soft then i_hard s else true) (i_nw s) (i_pr s) (i_w s).
Definition ifail {A} (s : st) (o : Outcome A) (k : A -> st * ires) : st * ires :=
  match o with Ret a => k a | Throw => (s, IThrow) | UB => (s, IUb) end.
Definition i_order (x : vec) : Outcome vec := match ic_ord c with Some o => order (fst o) x | None => Ret x end.
Definition i_unorder (x : vec) : Outcome vec := match ic_ord c with Some o => unorder (fst o) [] x | None => Ret x end.
(** setComponent( m_reorder ) / setComponent( m_mapping4Newton ) 36-39, 165-173 *)
Definition i_vmapping (w : W) (m : emap) : vmapping N :=
  let g := em_vmapping (ic_nd c) (ic_nf c) (ic_rhs c w) m in
  match ic_ord c with Some o => mkMap (inSize g) (outSize g) (reord_map (mkReord g (fst o) (snd o))) | None => g end.
(** doStep 78-159; the initial guess 92-112 *)
Definition i_step (s : st) : st * ires :=
  let h := ic_h c in
  let nd := ic_nd c in let nf := ic_nf c in
  let m := em_setStep h (i_map s) in
  let t := em_t m in let x := em_x m in
  let s1 := mkI m (i_hard s) (i_nw s) (i_pr s) (i_w s) in
  ifail s1 (match ic_pred c with
            | Some pr => pr (ndiv N h (nnat (ic_psteps c))) t x (ic_psteps c) (i_pr s, i_w s)
            | None => Ret (x, (i_pr s, i_w s)) end) (fun q =>
  let '(xp, (pr1, w1)) := q in
  let s2 := mkI m (i_hard s) (i_nw s) pr1 w1 in
  ifail s2 (em_eqn nd nf xp) (fun e0 =>
  ifail s2 (i_order e0) (fun e1 =>
  ifail s2 (nw_guess nw e1 (i_hard s) (i_nw s)) (fun n2 =>
  let s3 := mkI m false n2 pr1 w1 in
  ifail s3 (ic_before c t x w1) (fun w2 =>
  ifail (mkI m false n2 pr1 w2) (ev_start ev x t w2) (fun w3 =>
  let s4 := mkI m false n2 pr1 w3 in
  ifail s4 (nw_run nw (i_vmapping w3 m) n2) (fun r =>
  let '(n3, status) := r in
  let s5 := mkI m false n3 pr1 w3 in
  match status with
  | NConverged =>
    ifail s5 (i_unorder (nw_sol nw n3)) (fun e2 =>
    ifail s5 (em_expand nd nf m e2) (fun x2 =>
    ifail s5 (ev_end ev x x2 (nadd N t h) w3) (fun e =>
    let (w4, er) := e in
    let n4 := if ev_trunc er then nw_reset nw n3 else n3 in
    (mkI (em_setState (ev_t er) (ev_x er) m) false n4 pr1 w4,
     IDone (mkPost h true false (ev_trunc er) (n0 N) (ev_izf er) (ev_type er))))))
  | _ => (s5, IFailed status)
  end))))))).
(** client: count calls of doStep, all returning *)
Fixpoint i_steps (count : nat) (s : st) : option st :=
  match count with
  | O => Some s
  | Datatypes.S k => match i_step s with (s', IDone _) => i_steps k s' | _ => None end
  end.
End Solver.

(** NewtonSolver.h with NewtonIterationPerformerImpl and a descent direction, no observers, no regularization: setInitialGuess 99-103, run
    48-97.  dd: the direction object for a given mapping. *)
Definition plain_newton {D : Type} (dd : vmapping N -> ddir N D) (lit : ls_lit N) (mt limit : nat) : newton (perf N (S:=D)) :=
  mkNewton (perf N (S:=D))
    (fun x hard p => Ret (pf_guess (dd (mkMap 0 0 (fun _ => Throw))) x hard p))
    (fun g p => r <- nrun (plain_comps (dd g) lit mt g) limit p ;; let '(p', _, stt) := r in Ret (p', stt))
    (@p_x N D)
    (fun p => mkPerf (p_x p) (p_f p) (p_valid p) (p_ratio p) (p_est p) (dd_reset (dd (mkMap 0 0 (fun _ => Throw))) true (p_dd p))).
End Imp.
Arguments lblk {N} from count v.
Arguments mkEM {N} _ _ _ _ _ _.
Arguments em_alpha {N} _.
Arguments em_h {N} _.
Arguments em_t {N} _.
Arguments em_x {N} _.
Arguments em_f0 {N} _.
Arguments em_valid {N} _.
Arguments em_setState {N} t x m.
Arguments em_setStep {N} h m.
Arguments em_setAlpha {N} a m.
Arguments em_expand {N} nd nf m x.
Arguments em_prepare {N} f m.
Arguments em_map {N} nd nf f x m.
Arguments em_eqn {N} nd nf x.
Arguments em_vmapping {N} nd nf f m.
Arguments mkNewton {N S} _ _ _ _.
Arguments nw_guess {N S} _ _ _ _.
Arguments nw_run {N S} _ _ _.
Arguments nw_sol {N S} _ _.
Arguments nw_reset {N S} _ _.
Arguments mkIcfg {N W P} _ _ _ _ _ _ _ _.
Arguments ic_h {N W P} _.
Arguments ic_nd {N W P} _.
Arguments ic_nf {N W P} _.
Arguments ic_rhs {N W P} _ _ _ _.
Arguments ic_before {N W P} _ _ _ _.
Arguments ic_ord {N W P} _.
Arguments ic_pred {N W P} _.
Arguments ic_psteps {N W P} _.
Arguments mkI {N W P S} _ _ _ _ _.
Arguments i_map {N W P S} _.
Arguments i_hard {N W P S} _.
Arguments i_nw {N W P S} _.
Arguments i_pr {N W P S} _.
Arguments i_w {N W P S} _.
Arguments IDone {N} a.
Arguments IFailed {N} st.
Arguments IThrow {N}.
Arguments IUb {N}.
Arguments i_set {N W P S} t x soft s.
Arguments ifail {N W P S A} s o k.
Arguments i_order {N W P} c x.
Arguments i_unorder {N W P} c x.
Arguments i_vmapping {N W P} c w m.
Arguments i_step {N W P S} ev nw c s.
Arguments i_steps {N W P S} ev nw c count s.
Arguments plain_newton {N D} dd lit mt limit.
