(** RkModel.v - explicit Runge-Kutta steps.
    Models /repo/include/ode_num_int/ode/ExplicitRKHelper.h, OdeSolverExplicitRK.h (fixed step solvers), and the
    coefficient tables of OdeSolverExplicitEuler.h, OdeSolverRK4.h, OdeSolverDOPRI45.h, OdeSolverDOPRI56.h, OdeSolverDOPRI78.h.
    Simplifications: rhs(dst,t,x) is a function of t and x (and of the model's phase state) which overwrites dst and may
    throw; the calls of beforeStep, beforeStep2 and the timing statistics are left out. *)
From Coq Require Import List Arith Bool ZArith QArith Qcanon.
From Verif Require Import Base VecModel VOps.
Import ListNotations.
Local Open Scope nat_scope.

Section Rk.
Context (N : Num).
Notation T := (nT N).
Notation vec := (list T).

(** ExplicitRKHelper::Coefficients 19-36 *)
Record coeffs : Type := mkCo { co_a : vec; co_b : vec; co_c : vec; co_last : Z }.
(** ExplicitRKHelper::Output 38-58 *)
Record output : Type := mkOut { o_k : list vec; o_x2 : list vec; o_buf : vec }.
Definition out_empty : output := mkOut [] [] [].                                                     (* 43-46 *)
Definition out_new (stages n x2Count : nat) : output :=                                              (* 48-54 *)
  mkOut (repeat (repeat (n0 N) n) stages) (repeat (repeat (n0 N) n) x2Count) (repeat (n0 N) n).
(** empty() 55-57 *)
Definition out_is_empty (o : output) : bool := match o_k o with [] => true | _ => false end.

(** copy 96-108: std::copy over the source's range into the destination *)
Definition vcpy (dst src : vec) : Outcome vec :=
  if length src <=? length dst then Ret (src ++ skipn (length src) dst) else UB.

(** 73-75 and 88-91: the accumulation  v += k[i].scaled( h * coefficient ), zero coefficients skipped;
    the pointer into the coefficient array is the index [p]. *)
Definition accum (cs : vec) (p : nat) (h : T) (ks : list vec) (count : nat) (v : vec) : Outcome vec :=
  ofor 0 count (fun i v => a <- rd cs (p + i) ;;
    if neqb N a (n0 N) then Ret v else k <- rd ks i ;; ladd v (lscale k (nmul N h a))) v.

(** One stage, 71-77.  State: k, buf, the pointer a, the evaluations of the right-hand side made so far. *)
Definition rk_stage (co : coeffs) (f : T -> vec -> Outcome vec) (x1 : vec) (t1 h : T) (stage : nat)
    (st : list vec * vec * nat * list (T * vec)) : Outcome (list vec * vec * nat * list (T * vec)) :=
  let '(ks, buf, pa, log) := st in
  b0 <- vcpy buf x1 ;;
  b <- accum (co_a co) pa h ks stage b0 ;;
  c <- rd (co_c co) (stage - 1) ;;
  let t := nadd N t1 (nmul N h c) in
  k <- f t b ;;
  ks' <- wr ks stage k ;;
  Ret (ks', b, pa + stage, log ++ [(t, b)]).
(** One result, 80-93.  State: x2, buf, the pointer b.  An int index compared with an unsigned one: a negative index is never equal. *)
Definition rk_result (co : coeffs) (stages : nat) (ks : list vec) (x1 : vec) (h : T) (ix : nat)
    (st : list vec * vec * nat) : Outcome (list vec * vec * nat) :=
  let '(x2s, buf, pb) := st in
  x2 <- rd x2s ix ;;
  if Z.eqb (Z.of_nat ix) (co_last co) then
    x2s' <- wr x2s ix buf ;; Ret (x2s', x2, pb + stages)
  else
    b0 <- vcpy x2 x1 ;;
    b <- accum (co_b co) pb h ks stages b0 ;;
    x2s' <- wr x2s ix b ;;
    Ret (x2s', buf, pb + stages).
(** compute 60-94.  Returns the output and the evaluations (time, argument) in order. *)
Definition rk_compute (o : output) (co : coeffs) (f : T -> vec -> Outcome vec) (x1 : vec) (t1 h : T)
  : Outcome (output * list (T * vec)) :=
  let stages := length (o_k o) in
  k0 <- f t1 x1 ;;
  ks0 <- wr (o_k o) 0 k0 ;;
  r <- ofor 1 stages (rk_stage co f x1 t1 h) (ks0, o_buf o, 0, [(t1, x1)]) ;;
  let '(ks, buf, _, log) := r in
  q <- ofor 0 (length (o_x2 o)) (rk_result co stages ks x1 h) (o_x2 o, buf, 0) ;;
  let '(x2s, buf', _) := q in
  Ret (mkOut ks x2s buf', log).

(** * Event controllers, interfaces/OdeEventController.h, as used by the solvers.  The world W holds the controller's
    state and the model's phase state; the right-hand side depends on it. *)
Record evres : Type := mkEvres { ev_x : vec; ev_t : T; ev_trunc : bool; ev_izf : option nat; ev_type : Z }.
Record events (W : Type) : Type := mkEvents {
  ev_reset : W -> W;
  ev_start : vec -> T -> W -> Outcome W;
  ev_end : vec -> vec -> T -> W -> Outcome (W * evres) }.                (* x1, x2, t2 *)
(** What the post-step observers get: interfaces/OdeSolver.h 25-57 *)
Record postarg : Type := mkPost { pa_h : T; pa_accepted : bool; pa_changed : bool; pa_trunc : bool; pa_err : T; pa_izf : option nat; pa_type : Z }.

(** * OdeSolverExplicitRK.h.  m_h is None until initStep assigns it (131; the constructor 22-29 leaves the member 112 uninitialised). *)
Record rkst (W : Type) : Type := mkRk { rk_t : T; rk_x : vec; rk_h : option T; rk_out : output; rk_w : W }.
Section Solver.
Context {W : Type} (ev : events W) (f : W -> T -> vec -> Outcome vec) (co : coeffs) (n : nat) (hinit : T).
(** setInitialState 43-48, cleanupStep 134-139 *)
Definition rk_set (t : T) (x : vec) (s : rkst W) : rkst W := mkRk W t x (rk_h W s) out_empty (ev_reset W ev (rk_w W s)).
(** initStep 116-132 *)
Definition rk_init (s : rkst W) : rkst W :=
  if out_is_empty (rk_out W s)
  then mkRk W (rk_t W s) (rk_x W s) (Some hinit) (out_new (length (co_c co) + 1) n 1) (rk_w W s) else s.
(** doStep 50-99.  Also returns what the pre-observers (52) and the post-observers (90-96) were given. *)
Definition rk_step (s : rkst W) : Outcome (rkst W * option T * postarg) :=
  let s1 := rk_init s in
  match rk_h W s1 with
  | None => UB                                   (* not reached: initStep has set it *)
  | Some h =>
    w1 <- ev_start W ev (rk_x W s1) (rk_t W s1) (rk_w W s1) ;;
    r <- rk_compute (rk_out W s1) co (f w1) (rk_x W s1) (rk_t W s1) h ;;
    let o := fst r in
    x2 <- rd (o_x2 o) 0 ;;
    e <- ev_end W ev (rk_x W s1) x2 (nadd N (rk_t W s1) h) w1 ;;
    let (w2, er) := e in
    x2s <- wr (o_x2 o) 0 (rk_x W s1) ;;
    Ret (mkRk W (ev_t er) (ev_x er) (Some h) (mkOut (o_k o) x2s (o_buf o)) w2, rk_h W s,
         mkPost h true false (ev_trunc er) (n0 N) (ev_izf er) (ev_type er))
  end.
(** client: count calls of doStep *)
Fixpoint rk_steps (count : nat) (s : rkst W) : Outcome (rkst W * list postarg) :=
  match count with
  | O => Ret (s, [])
  | S c => r <- rk_step s ;; let '(s', _, a) := r in q <- rk_steps c s' ;; Ret (fst q, a :: snd q)
  end.
End Solver.

(** No event controller, or a controller for a model without zero functions which truncates no step
    (OdeSolverEventController.h; LinearOdeEventController.h 51-52 with the default truncateStep, OdeRhs.h 77-79) *)
Definition no_events {W : Type} : events W :=
  mkEvents W (fun w => w) (fun _ _ w => Ret w) (fun _ x2 t2 w => Ret (w, mkEvres x2 t2 false None 0%Z)).
End Rk.
Arguments mkCo {N} _ _ _ _.
Arguments co_a {N} _.
Arguments co_b {N} _.
Arguments co_c {N} _.
Arguments co_last {N} _.
Arguments mkOut {N} _ _ _.
Arguments o_k {N} _.
Arguments o_x2 {N} _.
Arguments o_buf {N} _.
Arguments out_empty {N}.
Arguments out_new {N} stages n x2Count.
Arguments out_is_empty {N} o.
Arguments vcpy {N} dst src.
Arguments accum {N} cs p h ks count v.
Arguments rk_stage {N} co f x1 t1 h stage st.
Arguments rk_result {N} co stages ks x1 h ix st.
Arguments rk_compute {N} o co f x1 t1 h.
Arguments mkEvres {N} _ _ _ _ _.
Arguments ev_x {N} _.
Arguments ev_t {N} _.
Arguments ev_trunc {N} _.
Arguments ev_izf {N} _.
Arguments ev_type {N} _.
Arguments mkEvents {N W} _ _ _.
Arguments ev_reset {N W} _ _.
Arguments ev_start {N W} _ _ _ _.
Arguments ev_end {N W} _ _ _ _ _.
Arguments mkPost {N} _ _ _ _ _ _ _.
Arguments pa_h {N} _.
Arguments pa_accepted {N} _.
Arguments pa_changed {N} _.
Arguments pa_trunc {N} _.
Arguments pa_err {N} _.
Arguments pa_izf {N} _.
Arguments pa_type {N} _.
Arguments mkRk {N W} _ _ _ _ _.
Arguments rk_t {N W} _.
Arguments rk_x {N W} _.
Arguments rk_h {N W} _.
Arguments rk_out {N W} _.
Arguments rk_w {N W} _.
Arguments rk_set {N W} ev t x s.
Arguments rk_init {N W} co n hinit s.
Arguments rk_step {N W} ev f co n hinit s.
Arguments rk_steps {N W} ev f co n hinit count s.
Arguments no_events {N W}.

(** * Coefficient tables, as exact quotients of the literals (in double arithmetic each is rounded) *)
Local Open Scope Z_scope.
Definition q0 : Qc := 0%Qc.
(** OdeSolverExplicitEuler.h 20-33 *)
Definition tab_euler : coeffs QcNum := mkCo (N:=QcNum) [] [qc 1 1] [] (-1).
(** OdeSolverRK4.h 20-35 *)
Definition tab_rk4 : coeffs QcNum := mkCo (N:=QcNum)
  [ qc 1 2;
    q0; qc 1 2;
    q0; q0; qc 1 1 ]
  [ qc 1 6; qc 1 3; qc 1 3; qc 1 6 ]
  [ qc 1 2; qc 1 2; qc 1 1 ]
  (-1).
(** OdeSolverDOPRI45.h 20-41 *)
Definition tab_dopri45 : coeffs QcNum := mkCo (N:=QcNum)
  [ qc 1 5;
    qc 3 40; qc 9 40;
    qc 44 45; qc (-56) 15; qc 32 9;
    qc 19372 6561; qc (-25360) 2187; qc 64448 6561; qc (-212) 729;
    qc 9017 3168; qc (-355) 33; qc 46732 5247; qc 49 176; qc (-5103) 18656;
    qc 35 384; q0; qc 500 1113; qc 125 192; qc (-2187) 6784; qc 11 84 ]
  [ qc 35 384; q0; qc 500 1113; qc 125 192; qc (-2187) 6784; qc 11 84; q0;
    qc 5179 57600; q0; qc 7571 16695; qc 393 640; qc (-92097) 339200; qc 187 2100; qc 1 40 ]
  [ qc 1 5; qc 3 10; qc 4 5; qc 8 9; qc 1 1; qc 1 1 ]
  0.
(** OdeSolverDOPRI56.h 20-42 *)
Definition tab_dopri56 : coeffs QcNum := mkCo (N:=QcNum)
  [ qc 1 10;
    qc (-2) 81; qc 20 81;
    qc 615 1372; qc (-270) 343; qc 1053 1372;
    qc 3243 5500; qc (-54) 55; qc 50949 71500; qc 4998 17875;
    qc (-26492) 37125; qc 72 55; qc 2808 23375; qc (-24206) 37125; qc 338 459;
    qc 5561 2376; qc (-35) 11; qc (-24117) 31603; qc 899983 200772; qc (-5225) 1836; qc 3925 4056;
    qc 465467 266112; qc (-2945) 1232; qc (-5610201) 14158144; qc 10513573 3212352; qc (-424325) 205632; qc 376225 454272; q0 ]
  [ qc 61 864; q0; qc 98415 321776; qc 16807 146016; qc 1375 7344; qc 1375 5408; qc (-37) 1120; qc 1 10;
    qc 821 10800; q0; qc 19683 71825; qc 175273 912600; qc 395 3672; qc 785 2704; qc 3 50; q0 ]
  [ qc 1 10; qc 2 9; qc 3 7; qc 3 5; qc 4 5; qc 1 1; qc 1 1 ]
  (-1).
(** OdeSolverDOPRI78.h 20-47 *)
Definition tab_dopri78 : coeffs QcNum := mkCo (N:=QcNum)
  [ qc 1 18;
    qc 1 48; qc 1 16;
    qc 1 32; q0; qc 3 32;
    qc 5 16; q0; qc (-75) 64; qc 75 64;
    qc 3 80; q0; q0; qc 3 16; qc 3 20;
    qc 29443841 614563906; q0; q0; qc 77736538 692538347; qc (-28693883) 1125000000; qc 23124283 1800000000;
    qc 16016141 946692911; q0; q0; qc 61564180 158732637; qc 22789713 633445777; qc 545815736 2771057229; qc (-180193667) 1043307555;
    qc 39632708 573591083; q0; q0; qc (-433636366) 683701615; qc (-421739975) 2616292301; qc 100302831 723423059; qc 790204164 839813087; qc 800635310 3783071287;
    qc 246121993 1340847787; q0; q0; qc (-37695042795) 15268766246; qc (-309121744) 1061227803; qc (-12992083) 490766935; qc 6005943493 2108947869; qc 393006217 1396673457; qc 123872331 1001029789;
    qc (-1028468189) 846180014; q0; q0; qc 8478235783 508512852; qc 1311729495 1432422823; qc (-10304129995) 1701304382; qc (-48777925059) 3047939560; qc 15336726248 1032824649; qc (-45442868181) 3398467696; qc 3065993473 597172653;
    qc 185892177 718116043; q0; q0; qc (-3185094517) 667107341; qc (-477755414) 1098053517; qc (-703635378) 230739211; qc 5731566787 1027545527; qc 5232866602 850066563; qc (-4093664535) 808688257; qc 3962137247 1805957418; qc 65686358 487910083;
    qc 403863854 491063109; q0; q0; qc (-5068492393) 434740067; qc (-411421997) 543043805; qc 652783627 914296604; qc 11173962825 925320556; qc (-13158990841) 6184727034; qc 3936647629 1978049680; qc (-160528059) 685178525; qc 248638103 1413531060; q0 ]
  [ qc 14005451 335480064; q0; q0; q0; q0; qc (-59238493) 1068277825; qc 181606767 758867731; qc 561292985 797845732; qc (-1041891430) 1371343529; qc 760417239 1151165299; qc 118820643 751138087; qc (-528747749) 2220607170; qc 1 4;
    qc 13451932 455176623; q0; q0; q0; q0; qc (-808719846) 976000145; qc 1757004468 5645159321; qc 656045339 265891186; qc (-3867574721) 1518517206; qc 465885868 322736535; qc 53011238 667516719; qc 2 45; q0 ]
  [ qc 1 18; qc 1 12; qc 1 8; qc 5 16; qc 3 8; qc 59 400; qc 93 200; qc 5490023248 9719169821; qc 13 20; qc 1201146811 1299019798; qc 1 1; qc 1 1 ]
  (-1).
