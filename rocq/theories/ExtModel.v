(** ExtModel.v - extrapolation and the Gragg solver.
    Models /repo/include/ode_num_int/ode/OdeSolverExtrapolator.h, ExtrapolatorStepSequence{Harmonic,Romberg,Bulirsch}.h and OdeSolverGragg.h. *)
From Coq Require Import List Arith Bool ZArith.
From Verif Require Import Base VecModel VOps RkModel StepModel.
Import ListNotations.
Local Open Scope nat_scope.

(** * Step sequences.  int arithmetic; an overflowing increment or shift is undefined behaviour
    (a shift of a positive int into the sign bit is implementation-defined since C++14; the model treats it as an overflow). *)
Definition int_max : Z := 2147483647.
Definition toint (z : Z) : Outcome Z := if (z <=? int_max)%Z then Ret z else UB.
(** interfaces/ExtrapolatorStepSequence.h 12-18 *)
Record stepseq (Q : Type) : Type := mkSeq { sq_reset : Q -> Q; sq_next : Q -> Outcome (Z * Q) }.
Arguments mkSeq {Q} _ _.
Arguments sq_reset {Q} _ _.
Arguments sq_next {Q} _ _.
(** ExtrapolatorStepSequenceHarmonic.h 20-26 *)
Definition harmonic : stepseq Z := mkSeq (fun _ => 1%Z) (fun cur => nxt <- toint (cur + 1) ;; Ret (cur, nxt)).
(** ExtrapolatorStepSequenceRomberg.h 20-29 *)
Definition romberg : stepseq Z := mkSeq (fun _ => 1%Z) (fun cur => nxt <- toint (2 * cur) ;; Ret (cur, nxt)).
(** ExtrapolatorStepSequenceBulirsch.h 20-41 *)
Record bul : Type := mkBul { b_ord : Z; b_odd : Z; b_even : Z }.
Definition bulirsch : stepseq bul := mkSeq (fun _ => mkBul 0 1 2)
  (fun s => ord <- toint (b_ord s + 1) ;;
    if Z.odd ord then Ret (b_odd s, mkBul ord (b_odd s) (b_even s))
    else odd <- (if (ord =? 2)%Z then Ret 3%Z else toint (2 * b_odd s)) ;;
         even <- toint (2 * b_even s) ;;
         Ret (b_even s, mkBul ord odd even)).
(** client: reset and take count values *)
Fixpoint sq_take {Q} (sq : stepseq Q) (count : nat) (s : Q) : Outcome (list Z * Q) :=
  match count with
  | O => Ret ([], s)
  | S c => r <- sq_next sq s ;; q <- sq_take sq c (snd r) ;; Ret (fst r :: fst q, snd q)
  end.

Section Ext.
Context (N : Num).
Notation T := (nT N).
Notation vec := (list T).
(** conversion of a non-negative int to the number type *)
Fixpoint nnat (k : nat) : T := match k with O => n0 N | S k' => nadd N (nnat k') (n1 N) end.

(** One update 136-143: T1 is m_T[j-k-1], T2 is m_T[j-k] *)
Definition nev_update (sym : bool) (ns : list nat) (k j : nat) (Ts : list vec) : Outcome (list vec) :=
  T1 <- rd Ts (j - k - 1) ;;
  T2 <- rd Ts (j - k) ;;
  nj <- rd ns (j - 1) ;;
  njk <- rd ns (j - k - 1) ;;
  let r0 := ndiv N (nnat nj) (nnat njk) in
  let r := if sym then nmul N r0 r0 else r0 in
  let d := ndiv N (n1 N) (nsub N r (n1 N)) in
  T1' <- ladd (lscale T1 (nopp N d)) (lscale T2 (nadd N (n1 N) d)) ;;
  wr Ts (j - k - 1) T1'.
(** the Aitken-Neville loops 134-145 *)
Definition neville (sym : bool) (ns : list nat) (stages : nat) (Ts : list vec) : Outcome (list vec) :=
  ofor 1 stages (fun k => ofor (k + 1) (stages + 1) (nev_update sym ns k)) Ts.

(** * The reference solver: an OdeSolver, as a state machine (its state S includes the state of the model) *)
Record refsolver (S : Type) : Type := mkRef {
  rs_set : T -> vec -> S -> Outcome S;       (* setInitialState( t, x, true ) *)
  rs_size : T -> S -> S;                     (* setInitialStepSize *)
  rs_do : S -> Outcome S;                    (* doStep *)
  rs_get : S -> Outcome vec }.               (* initialState *)
Arguments rs_set {S} _ _ _ _.
Arguments rs_size {S} _ _ _.
Arguments rs_do {S} _ _.
Arguments rs_get {S} _ _.
Fixpoint rs_steps {S} (rs : refsolver S) (count : nat) (s : S) : Outcome S :=                        (* 118-119 *)
  match count with O => Ret s | Datatypes.S c => s' <- rs_do rs s ;; rs_steps rs c s' end.
(** One stage 114-121.  State: m_T, the entries of m_n written so far (all are written before one is read; m_n has the size of m_T), the reference solver,
    the step sequence. *)
Definition x_stage {S Q} (rs : refsolver S) (sq : stepseq Q) (t : T) (x : vec) (h : T) (k : nat)
    (st : list vec * list nat * S * Q) : Outcome (list vec * list nat * S * Q) :=
  let '(Ts, ns, s, q) := st in
  s1 <- rs_set rs t x s ;;
  r <- sq_next sq q ;;
  let (n, q') := (r : Z * Q) in
  let nn := Z.to_nat n in
  s2 <- rs_steps rs nn (rs_size rs (ndiv N h (nnat nn)) s1) ;;
  v <- rs_get rs s2 ;;
  Ts' <- wr Ts k v ;;
  Ret (Ts', ns ++ [nn], s2, q').

(** The solver object 242-255.  m_h is None until initStep assigns it (274). *)
Record xst (S Q : Type) : Type := mkX { x_t : T; x_x : vec; x_h : option T; x_T : list vec; x_s : S; x_q : Q }.
Record xcfg : Type := mkXcfg {
  xc_n : nat; xc_hinit : T; xc_hmin : T; xc_sym : bool; xc_nocheck : bool; xc_stages : nat;
  xc_norm : vec -> Outcome T; xc_sc : T -> T -> T * bool * bool }.        (* the controller is given lowOrder(), 168 *)
Section Solver.
Context {S Q : Type} (rs : refsolver S) (sq : stepseq Q) (ev : events N S) (c : xcfg).
Notation st := (xst S Q).
(** setInitialState 80-87 (with the non-soft call of the reference solver's setInitialState, which the model takes to be its soft one), cleanupStep 279-284 *)
Definition x_set (soft : bool) (t : T) (x : vec) (s : st) : Outcome st :=
  s1 <- (if soft then Ret (x_s S Q s) else rs_set rs t x (x_s S Q s)) ;;
  Ret (mkX S Q t x (x_h S Q s) [] (ev_reset ev s1) (x_q S Q s)).
(** computeTsize 286-294 *)
Fixpoint x_last (count : nat) (q : Q) : Outcome (Z * Q) :=
  match count with O => sq_next sq q | Datatypes.S k => r <- sq_next sq q ;; x_last k (snd r) end.
Definition x_tsize (q : Q) : Outcome (Z * Q) := x_last (xc_stages c - 1) (sq_reset sq q).
(** initStep 257-277 (with a reference solver and a step sequence) *)
Definition x_init (s : st) : Outcome st :=
  match x_T S Q s with
  | _ :: _ => Ret s
  | [] => r <- x_tsize (x_q S Q s) ;;
          Ret (mkX S Q (x_t S Q s) (x_x S Q s) (Some (xc_hinit c)) (repeat (repeat (n0 N) (xc_n c)) (Z.to_nat (fst r))) (x_s S Q s) (snd r))
  end.
(** 154-161: err = nextState - m_T[1], left in m_T[1] *)
Definition x_error (Ts : list vec) : Outcome (T * list vec) :=
  if xc_nocheck c then Ret (n0 N, Ts)
  else T0 <- rd Ts 0 ;; T1 <- rd Ts 1 ;; e <- ladd (lscale T1 (nopp N (n1 N))) T0 ;; en <- xc_norm c e ;; Ts' <- wr Ts 1 e ;; Ret (en, Ts').
(** a call that may throw *)
Definition xfail {A} (s : st) (o : Outcome A) (k : A -> st * attempt N) : st * attempt N :=
  match o with Ret a => k a | Throw => (s, AThrow) | UB => (s, AUb) end.
(** One pass of the loop 91-204.  Simplification: when a callback throws, the reference solver, the step sequence and the work space are left as they were before the
    pass; the next pass sets them again. *)
Definition x_attempt (s : st) : st * attempt N :=
  xfail s (x_init s) (fun s1 =>
  match x_h S Q s1 with
  | None => (s1, AUb)
  | Some h =>
    let t := x_t S Q s1 in let x := x_x S Q s1 in
    xfail s1 (ev_start ev x t (x_s S Q s1)) (fun w1 =>
    let s2 := mkX S Q t x (Some h) (x_T S Q s1) w1 (x_q S Q s1) in
    xfail s2 (ofor 0 (xc_stages c) (x_stage rs sq t x h) (x_T S Q s1, [], w1, sq_reset sq (x_q S Q s1))) (fun r =>
    let '(Ts, ns, sr, q') := r in
    xfail s2 (neville (xc_sym c) ns (xc_stages c) Ts) (fun Tn =>
    xfail s2 (rd Tn 0) (fun next =>
    xfail s2 (x_error Tn) (fun er0 =>
    let (err, Te) := (er0 : T * list vec) in
    let '(h', accept, change) := if xc_nocheck c then (h, true, false) else xc_sc c h err in
    let hnew := if change then h' else h in
    if accept then
      xfail s2 (ev_end ev x next (nadd N t h) sr) (fun e =>
      let (w2, er) := e in
      xfail s2 (wr Te 0 x) (fun T' =>
      let s3 := mkX S Q (ev_t er) (ev_x er) (Some hnew) T' w2 q' in
      if change && nleb N hnew (xc_hmin c) then (s3, ATooSmall)
      else (s3, AAccepted (mkPost hnew true change (ev_trunc er) err (ev_izf er) (ev_type er)))))
    else
      let s3 := mkX S Q t x (Some hnew) Te sr q' in
      if change && nleb N hnew (xc_hmin c) then (s3, ATooSmall)
      else (s3, ARejected (mkPost hnew false change false err None 0%Z)))))))
  end).
Fixpoint x_step (fuel : nat) (s : st) : st * list (postarg N) * option (attempt N) :=
  match fuel with
  | O => (s, [], None)
  | Datatypes.S k => match x_attempt s with
           | (s', ARejected a) => let '(s2, l, r) := x_step k s' in (s2, a :: l, r)
           | (s', AAccepted a) => (s', [a], Some (AAccepted a))
           | (s', r) => (s', [], Some r)
           end
  end.
End Solver.

(** * OdeSolverGragg.h.  The world W holds the state of the event controller and of the model. *)
Record gst (W : Type) : Type := mkG { g_t : T; g_u : vec; g_v : vec; g_f : vec; g_run : bool; g_h : T; g_w : W }.
Section Gragg.
Context {W : Type} (ev : events N W) (f : W -> T -> vec -> Outcome vec) (smooth : bool) (half two : T).
Notation st := (gst W).
(** setInitialState 57-62 (the event controller is not reset), setInitialStepSize 51-55 *)
Definition g_set (t : T) (x : vec) (s : st) : st := mkG W t x (g_v W s) (g_f W s) false (g_h W s) (g_w W s).
Definition g_size (h : T) (s : st) : st := mkG W (g_t W s) (g_u W s) (g_v W s) (g_f W s) false h (g_w W s).
(** initialState 39-49; half is the literal 0.5 *)
Definition g_state (s : st) : Outcome vec :=
  if smooth && g_run W s then ladd (lscale (g_u W s) half) (lscale (g_v W s) half) else Ret (g_u W s).
(** doStep 64-124; two is the literal 2.  A callback that throws leaves the vectors v and f as they are at that point. *)
Inductive gres : Type := GRet (a : postarg N) | GThrow | GUb.
Definition gcall {A} (s : st) (o : Outcome A) (k : A -> st * gres) : st * gres :=
  match o with Ret a => k a | Throw => (s, GThrow) | UB => (s, GUb) end.
Definition g_step (s : st) : st * gres :=
  let t := g_t W s in let u := g_u W s in let h := g_h W s in let run := g_run W s in
  let h2 := ndiv N h two in
  gcall s (ev_start ev u t (g_w W s)) (fun w1 =>
  let mk := fun v fb => mkG W t u v fb run h w1 in
  let s1 := if run then mk (g_v W s) (g_f W s) else mk u (g_f W s) in
  gcall s1 (if run then Ret (g_f W s) else f w1 t u) (fun f0 =>
  gcall (mk (g_v W s1) f0) (ladd (g_v W s1) (lscale f0 h2)) (fun v1 =>
  gcall (mk v1 f0) (f w1 (nadd N t h2) v1) (fun f1 =>
  gcall (mk v1 f1) (ladd u (lscale f1 h)) (fun u2 =>
  gcall (mk v1 f1) (f w1 (nadd N t h) u2) (fun f2 =>
  gcall (mk v1 f2) (ladd v1 (lscale f2 h2)) (fun v2 =>
  gcall (mk v2 f2) (ev_end ev u u2 (nadd N t h) w1) (fun e =>
  let (w2, er) := e in
  (mkG W (ev_t er) (ev_x er) v2 f2 (negb (ev_trunc er)) h w2, GRet (mkPost h true false (ev_trunc er) (n0 N) (ev_izf er) (ev_type er))))))))))).
(** client: count calls of doStep, all returning *)
Fixpoint g_steps (count : nat) (s : st) : option st :=
  match count with
  | O => Some s
  | S c => match g_step s with (s', GRet _) => g_steps c s' | _ => None end
  end.
End Gragg.

(** * The library's solvers as reference solvers *)
(** OdeSolverExplicitRK.h: setInitialState 43-48 ignores its third argument.  State: the initial step size and the solver object. *)
Definition rk_ref {W : Type} (ev : events N W) (f : W -> T -> vec -> Outcome vec) (co : coeffs N) (n : nat) : refsolver (T * rkst N W) :=
  mkRef (T * rkst N W) (fun t x s => Ret (fst s, rk_set ev t x (snd s))) (fun h s => (h, snd s))
        (fun s => r <- rk_step ev f co n (fst s) (snd s) ;; let '(s', _, _) := r in Ret (fst s, s')) (fun s => Ret (rk_x (snd s))).
Definition gragg_ref {W : Type} (ev : events N W) (f : W -> T -> vec -> Outcome vec) (smooth : bool) (half two : T) : refsolver (gst W) :=
  mkRef (gst W) (fun t x s => Ret (g_set t x s)) (fun h s => g_size h s)
        (fun s => match g_step ev f two s with (s', GRet _) => Ret s' | (_, GThrow) => Throw | (_, GUb) => UB end) (fun s => g_state smooth half s).
End Ext.
Arguments nnat {N} k.
Arguments nev_update {N} sym ns k j Ts.
Arguments neville {N} sym ns stages Ts.
Arguments mkRef {N S} _ _ _ _.
Arguments rs_set {N S} _ _ _ _.
Arguments rs_size {N S} _ _ _.
Arguments rs_do {N S} _ _.
Arguments rs_get {N S} _ _.
Arguments rs_steps {N S} rs count s.
Arguments x_stage {N S Q} rs sq t x h k st.
Arguments mkX {N S Q} _ _ _ _ _ _.
Arguments x_t {N S Q} _.
Arguments x_x {N S Q} _.
Arguments x_h {N S Q} _.
Arguments x_T {N S Q} _.
Arguments x_s {N S Q} _.
Arguments x_q {N S Q} _.
Arguments mkXcfg {N} _ _ _ _ _ _ _ _.
Arguments xc_n {N} _.
Arguments xc_hinit {N} _.
Arguments xc_hmin {N} _.
Arguments xc_sym {N} _.
Arguments xc_nocheck {N} _.
Arguments xc_stages {N} _.
Arguments xc_norm {N} _ _.
Arguments xc_sc {N} _ _ _.
Arguments x_set {N S Q} rs ev soft t x s.
Arguments x_tsize {N Q} sq c q.
Arguments x_init {N S Q} sq c s.
Arguments x_error {N} c Ts.
Arguments xfail {N S Q A} s o k.
Arguments x_attempt {N S Q} rs sq ev c s.
Arguments x_step {N S Q} rs sq ev c fuel s.
Arguments mkG {N W} _ _ _ _ _ _ _.
Arguments g_t {N W} _.
Arguments g_u {N W} _.
Arguments g_v {N W} _.
Arguments g_f {N W} _.
Arguments g_run {N W} _.
Arguments g_h {N W} _.
Arguments g_w {N W} _.
Arguments g_set {N W} t x s.
Arguments g_size {N W} h s.
Arguments g_state {N W} smooth half s.
Arguments GRet {N} a.
Arguments GThrow {N}.
Arguments GUb {N}.
Arguments gcall {N W A} s o k.
Arguments rk_ref {N W} ev f co n.
Arguments gragg_ref {N W} ev f smooth half two.
Arguments g_step {N W} ev f two s.
Arguments g_steps {N W} ev f two count s.
