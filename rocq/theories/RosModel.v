(** RosModel.v - the Rosenbrock solvers.
    Models /repo/include/ode_num_int/ode/OdeSolverRosenbrock_W_base.h, OdeSolverRosenbrock_W1.h and OdeSolverRosenbrock_SW2_4.h.
    Scalars: exact rationals (as in LUModel.v).  Simplifications: the observers of the solver and the timing statistics are left out;
    rhs(dst,t,x) is a function of t and x and of the model's state. *)
From Coq Require Import List Arith Bool ZArith QArith Qcanon.
From Verif Require Import Base VecModel VOps SpModel LUSpec LUModel RkModel StepModel.
Import ListNotations.
Local Open Scope nat_scope.

Notation qvec := (list Qc).
Definition qadd (a b : qvec) : Outcome qvec := ladd (N:=QcNum) a b.
Definition qsub (a b : qvec) : Outcome qvec := lsub (N:=QcNum) a b.
Definition qscale (a : qvec) (k : Qc) : qvec := lscale (N:=QcNum) a k.
Definition qcpy (dst src : qvec) : Outcome qvec := vcpy (N:=QcNum) dst src.
Definition zeros (n : nat) : qvec := repeat 0%Qc n.

(** * OdeSolverRosenbrock_W_base.h 96-107.  ro_mats: the matrices m_J1, m_J2, m_W (objects 0, 1, 2, array storage) and a local map-backed
    matrix (object 3).  ro_cache: the map m_W_LU_cache.  ro_lu: the pointer m_W_LU, as the key of the cache entry it points to.
    m_buf4mul is left out: it has the size ro_n2 + ro_n1 and is overwritten before it is read. *)
Record ros : Type := mkRos { ro_n2 : nat; ro_n1 : nat; ro_mats : mems QcNum; ro_cache : list (Qc * lu); ro_lu : option Qc; ro_hd : Qc }.
(** 26-30 *)
Definition ros_new : ros := mkRos 0 0 [new_fast (N:=QcNum) (0, 0); new_fast (N:=QcNum) (0, 0); new_fast (N:=QcNum) (0, 0); new_map (N:=QcNum) (0, 0)] [] None 0%Qc.
Definition ro_n (r : ros) : nat := 2 * ro_n2 r + ro_n1 r.       (* m_n: varCount, interfaces/OdeRhs.h 81-83 *)
Definition ro_m (r : ros) : nat := ro_n2 r + ro_n1 r.

Fixpoint lookup (k : Qc) (c : list (Qc * lu)) : option lu :=
  match c with [] => None | (k', s) :: t => if Qceqb k' k then Some s else lookup k t end.
(** what the pointer points to *)
Definition store (k : Qc) (s : lu) (c : list (Qc * lu)) : list (Qc * lu) := map (fun e => if Qceqb (fst e) k then (fst e, s) else e) c.

(** m_J2.block( 0, 0, m_n2+m_n1, m_n2 ) *)
Definition ro_J2b (r : ros) : sexpr QcNum := SBk (SW (N:=QcNum) 1) (0, 0) (ro_m r, ro_n2 r).
(** x.block( from, count ) += v: 53, 55, 67; element access by at *)
Definition add_block (from count : nat) (v : nat -> qvec -> Outcome Qc) (x : qvec) : Outcome qvec :=
  ofor 0 count (fun i x => a <- rdat x (from + i) ;; b <- v i x ;; wrat x (from + i) (a + b)%Qc) x.
(** linSolve 47-57; &x[m_n2] is at *)
Definition ros_linSolve (x : qvec) (hd : Qc) (r : ros) : Outcome (ros * qvec) :=
  match ro_lu r with
  | None => UB
  | Some k => match lookup k (ro_cache r) with
    | None => UB
    | Some s =>
      b <- mulVectRight (N:=QcNum) (ro_m r) (siter (ro_mats r) (ro_J2b r)) x (zeros (ro_m r)) ;;
      x1 <- add_block (ro_n2 r) (ro_m r) (fun i _ => e <- rdat b i ;; Ret (e * hd)%Qc) x ;;
      _ <- rdat x1 (ro_n2 r) ;;
      q <- solve s (skipn (ro_n2 r) x1) ;;
      let x2 := firstn (ro_n2 r) x1 ++ snd q in
      x3 <- add_block 0 (ro_n2 r) (fun i x => e <- rdat x (ro_n2 r + i) ;; Ret (e * hd)%Qc) x2 ;;
      Ret (mkRos (ro_n2 r) (ro_n1 r) (ro_mats r) (store k (fst q) (ro_cache r)) (ro_lu r) (ro_hd r), x3)
    end
  end.
(** mult 59-68; the iterators x.begin()+m_n2 and dst.begin()+m_n2 *)
Definition ros_mult (dst x : qvec) (r : ros) : Outcome qvec :=
  if negb ((ro_n2 r + ro_n2 r <=? length x) && (ro_n2 r <=? length dst)) then UB else
  y <- mulVectRight (N:=QcNum) (fst (ssz (obj (ro_mats r) 0))) (siter (ro_mats r) (SW (N:=QcNum) 0)) (skipn (ro_n2 r) x) (skipn (ro_n2 r) dst) ;;
  b <- mulVectRight (N:=QcNum) (ro_m r) (siter (ro_mats r) (ro_J2b r)) x (zeros (ro_m r)) ;;
  add_block (ro_n2 r) (ro_m r) (fun i _ => rdat b i) (firstn (ro_n2 r) (skipn (ro_n2 r) x) ++ y).

(** buildJacobian, the local function makeJ 114-130, up to the assignment 129 *)
Definition jdx : Qc := qc 1 1000000.
Definition ros_column (n2 n : nat) (f f0 : qvec) (col : nat) (J : smat QcNum) : Outcome (smat QcNum) :=
  ofor n2 n (fun j (J : smat QcNum) => a <- rdat f j ;; b <- rdat f0 j ;;
    if Qceqb (a - b)%Qc 0%Qc then Ret J else at_upd J (j - n2, col) (fun _ => ((a - b) / jdx)%Qc)) J.
Definition ros_makeJ (n2 n1 : nat) (f : Qc -> qvec -> Outcome qvec) (t : Qc) (x0 f0 : qvec) (istart isize : nat) : Outcome (smat QcNum) :=
  q <- ofor istart isize (fun i xJ =>
         a <- rdat (fst xJ) i ;; x1 <- wrat (fst xJ) i (a + jdx)%Qc ;;
         fv <- f t x1 ;;
         b <- rdat x0 i ;; x2 <- wrat x1 i b ;;
         J <- ros_column n2 (2 * n2 + n1) fv f0 (i - istart) (snd xJ) ;;
         Ret (x2, J)) (x0, new_map (N:=QcNum) (n2 + n1, n2 + n1)) ;;
  Ret (snd q).
(** the state a failing call leaves beside its outcome *)
Definition rfail {A B} (r : A) (o : Outcome B) (k : B -> A * Outcome unit) : A * Outcome unit :=
  match o with Ret b => k b | Throw => (r, Throw) | UB => (r, UB) end.
Definition mret (o : option (mems QcNum * Outcome unit)) : Outcome (mems QcNum) :=
  match o with Some (m, Ret _) => Ret m | Some (_, Throw) => Throw | _ => UB end.
Definition fuel_for (m : mems QcNum) (id : nat) : nat := S (length (sdat (obj m id))).
(** 137-142: the stencil of m_W *)
Definition ros_stencil (m : mems QcNum) (sz : nat) : Outcome (mems QcNum) :=
  i <- addScaledIdentity (new_map (N:=QcNum) (sz, sz)) (1%Qc : nT QcNum) ;;
  let m1 := upd m 3 i in
  m2 <- mret (spluseq (fuel_for m1 0) m1 (SW (N:=QcNum) 3) (SW (N:=QcNum) 0)) ;;
  m3 <- mret (spluseq (fuel_for m2 1) m2 (SW (N:=QcNum) 3) (SW (N:=QcNum) 1)) ;;
  mret (sassign 1 m3 2 (SW (N:=QcNum) 3)).
(** buildJacobian 109-148 *)
Definition ros_build (f : Qc -> qvec -> Outcome qvec) (t : Qc) (x0 f0 : qvec) (r : ros) : ros * Outcome unit :=
  let n2 := ro_n2 r in let n1 := ro_n1 r in
  let w m := mkRos n2 n1 m (ro_cache r) (ro_lu r) (ro_hd r) in
  rfail r (ros_makeJ n2 n1 f t x0 f0 n2 (n2 + n1)) (fun J1 =>
  rfail r (mret (sassign 1 (upd (ro_mats r) 3 J1) 0 (SW (N:=QcNum) 3))) (fun m1 =>
  rfail (w m1) (ros_makeJ n2 n1 f t x0 f0 0 n2) (fun J2 =>
  rfail (w m1) (mret (sassign 1 (upd m1 3 J2) 1 (SW (N:=QcNum) 3))) (fun m2 =>
  rfail (w m2) (ros_stencil m2 (n2 + n1)) (fun m3 =>
  (mkRos n2 n1 m3 [] None 0%Qc, Ret tt)))))).
(** 162-165 *)
Definition ros_W (hd : Qc) (m : mems QcNum) : Outcome (mems QcNum) :=
  i <- addScaledIdentity (makeZero (obj m 2)) (1%Qc : nT QcNum) ;;
  let m1 := upd m 2 i in
  m2 <- mret (sminuseq (fuel_for m1 0) m1 (SW (N:=QcNum) 2) (SSc (SW (N:=QcNum) 0) (hd : nT QcNum))) ;;
  mret (sminuseq (fuel_for m2 1) m2 (SW (N:=QcNum) 2) (SSc (SW (N:=QcNum) 1) ((hd * hd)%Qc : nT QcNum))).
(** updateW 150-171.  LUFactorizer(m): LUFactorizer.h 25-28, setMatrix *)
Definition max_cache : nat := 100.
Definition ros_update (hd : Qc) (r : ros) : ros * Outcome unit :=
  if Qceqb (ro_hd r) hd then (r, Ret tt) else
  match lookup hd (ro_cache r) with
  | Some _ => (mkRos (ro_n2 r) (ro_n1 r) (ro_mats r) (ro_cache r) (Some hd) hd, Ret tt)
  | None =>
    let c := if max_cache <=? length (ro_cache r) then [] else ro_cache r in
    rfail (mkRos (ro_n2 r) (ro_n1 r) (ro_mats r) c (ro_lu r) hd) (ros_W hd (ro_mats r)) (fun m =>
    rfail (mkRos (ro_n2 r) (ro_n1 r) m c (ro_lu r) hd) (setMatrix (sdat (obj m 2))) (fun s =>
    (mkRos (ro_n2 r) (ro_n1 r) m ((hd, s) :: c) (Some hd) hd, Ret tt)))
  end.
(** initStep 70-90 *)
Definition ros_init (hard : bool) (n2 n1 : nat) (f : Qc -> qvec -> Outcome qvec) (t : Qc) (x0 f0 : qvec) (hd : Qc) (r : ros) : ros * Outcome unit :=
  let r1 := if hard then mkRos n2 n1 (ro_mats r) (ro_cache r) (ro_lu r) (ro_hd r) else r in
  match (if hard then ros_build f t x0 f0 r1 else (r1, Ret tt)) with
  | (r2, Ret _) => ros_update hd r2
  | q => q
  end.

(** * The solvers: OdeSolverRosenbrock_W1.h 128-137, OdeSolverRosenbrock_SW2_4.h 210-223.  q_f0: m_initialOdeRhs; q_k: the size of m_k1.
    The other work vectors have that size and are overwritten before they are read. *)
Record rst (W : Type) : Type := mkRst { q_t : Qc; q_x : qvec; q_h : Qc; q_f0 : qvec; q_k : nat; q_ros : ros; q_w : W }.
Arguments mkRst {W} _ _ _ _ _ _ _.
Arguments q_t {W} _.
Arguments q_x {W} _.
Arguments q_h {W} _.
Arguments q_f0 {W} _.
Arguments q_k {W} _.
Arguments q_ros {W} _.
Arguments q_w {W} _.
Record rcfg (W : Type) : Type := mkRcfg {
  rc_n2 : nat; rc_n1 : nat; rc_d : Qc;
  rc_rhs : W -> Qc -> qvec -> Outcome qvec;
  rc_before : Qc -> qvec -> qvec -> W -> Outcome W;          (* beforeStep, beforeStep2 *)
  rc_hmin : Qc; rc_nocheck : bool;
  rc_norm : qvec -> Outcome Qc;
  rc_sc : Qc -> Qc -> Qc * bool * bool }.                     (* controlStepSize with order 2 *)
Arguments mkRcfg {W} _ _ _ _ _ _ _ _ _.
Arguments rc_n2 {W} _.
Arguments rc_n1 {W} _.
Arguments rc_d {W} _.
Arguments rc_rhs {W} _ _ _ _.
Arguments rc_before {W} _ _ _ _ _.
Arguments rc_hmin {W} _.
Arguments rc_nocheck {W} _.
Arguments rc_norm {W} _ _.
Arguments rc_sc {W} _ _ _.

Section Solvers.
Context {W : Type} (ev : events QcNum W) (c : rcfg W).
Notation st := (rst W).
Definition rc_n : nat := 2 * rc_n2 c + rc_n1 c.
Definition vresize (n : nat) (v : qvec) : qvec := firstn n v ++ zeros (n - length v).
(** constructors W1 23-28, SW2_4 27-35; setInitialStepSize W1 30-34, SW2_4 37-41 *)
Definition q_new (w : W) : st := mkRst 0%Qc [] 0%Qc [] 0 ros_new w.
Definition q_setStep (h : Qc) (s : st) : st := mkRst (q_t s) (q_x s) h (q_f0 s) (q_k s) (q_ros s) (q_w s).
(** setInitialState W1 48-55, SW2_4 55-65 (soft: evaluates the right-hand side into m_initialOdeRhs; a vector not yet allocated is written
    past its end); the event controller is not reset *)
Definition w1_set (t : Qc) (x : qvec) (soft : bool) (s : st) : st :=
  mkRst t x (q_h s) (q_f0 s) (if soft then q_k s else 0) (q_ros s) (q_w s).
Definition sw_set (t : Qc) (x : qvec) (soft : bool) (s : st) : st * Outcome unit :=
  let s1 := mkRst t x (q_h s) (q_f0 s) (if soft then q_k s else 0) (q_ros s) (q_w s) in
  if soft then
    rfail s1 (rc_rhs c (q_w s) t x) (fun f0 =>
      if length (q_f0 s) <? length f0 then (s1, UB)
      else (mkRst t x (q_h s) (f0 ++ skipn (length f0) (q_f0 s)) (q_k s) (q_ros s) (q_w s), Ret tt))
  else (s1, Ret tt).
(** initStep W1 139-161 (always = true), SW2_4 225-253 (always = false).  When the right-hand side throws, m_initialOdeRhs keeps its contents. *)
Definition q_init (always : bool) (s : st) : st * Outcome unit :=
  let hard := q_k s =? 0 in
  let s1 := if hard then mkRst (q_t s) (q_x s) (q_h s) (vresize rc_n (q_f0 s)) rc_n (q_ros s) (q_w s) else s in
  rfail s1 (if hard || always then rc_rhs c (q_w s) (q_t s) (q_x s) else Ret (q_f0 s)) (fun f0 =>
  let (r, o) := ros_init hard (rc_n2 c) (rc_n1 c) (rc_rhs c (q_w s)) (q_t s) (q_x s) f0 (q_h s * rc_d c)%Qc (q_ros s) in
  (mkRst (q_t s) (q_x s) (q_h s) f0 (q_k s1) r (q_w s), o)).
Definition qfail {B} (s : st) (o : Outcome B) (k : B -> st * attempt QcNum) : st * attempt QcNum :=
  match o with Ret b => k b | Throw => (s, AThrow) | UB => (s, AUb) end.
(** linSolve W1 167-169, SW2_4 259-261.  The sizes m_n, m_n1, m_n2 are set by the first hard initialisation of the base class (W_base 78-82), not by its
    constructor; reading them before that is undefined.  Sizes 0 stand for sizes not set. *)
Definition q_solve (h : Qc) (x : qvec) (r : ros) : Outcome (ros * qvec) :=
  if (ro_m r =? 0) && (0 <? length x) then UB else ros_linSolve x (h * rc_d c)%Qc r.

(** W1::doStep 57-106 *)
Definition w1_next (n : nat) (x f0 : qvec) (h : Qc) (r : ros) : Outcome (ros * qvec) :=
  k0 <- qcpy (zeros n) f0 ;;
  k1 <- q_solve h k0 r ;;
  x0 <- qcpy (zeros n) x ;;
  x1 <- qadd x0 (qscale (snd k1) h) ;;
  Ret (fst k1, x1).
Definition w1_step (s : st) : st * attempt QcNum :=
  let (s1, o) := q_init true s in
  let t := q_t s1 in let x := q_x s1 in let h := q_h s1 in let f0 := q_f0 s1 in
  let upd_w r w := mkRst t x h f0 (q_k s1) r w in
  qfail s1 o (fun _ =>
  qfail s1 (rc_before c t x f0 (q_w s1)) (fun w1 =>
  qfail (upd_w (q_ros s1) w1) (ev_start ev x t w1) (fun w2 =>
  qfail (upd_w (q_ros s1) w2) (w1_next (q_k s1) x f0 h (q_ros s1)) (fun p =>
  qfail (upd_w (fst p) w2) (ev_end ev x (snd p) (t + h)%Qc w2) (fun e =>
  let (w3, er) := e in
  (mkRst (ev_t er) (ev_x er) h f0 (q_k s1) (fst p) w3, AAccepted (mkPost (N:=QcNum) h true false (ev_trunc er) 0%Qc (ev_izf er) (ev_type er)))))))).

(** SW2_4::doStep 92-111: k1, k2 and the next state.  Simplification: a call that throws leaves the decompositions as they were before the pass
    (a decomposition done early changes nothing observable, C44_transparent). *)
Definition sw_stages (f : Qc -> qvec -> Outcome qvec) (n : nat) (t : Qc) (x f0 : qvec) (h : Qc) (r : ros) : Outcome (ros * qvec * qvec * qvec) :=
  k10 <- qcpy (zeros n) f0 ;;
  p1 <- q_solve h k10 r ;;
  let k1 := snd p1 in
  b0 <- qcpy (zeros n) x ;;
  b <- qadd b0 (qscale k1 (h * (1 + 1) / (1 + 1 + 1))%Qc) ;;
  k20 <- f (t + h * (1 + 1) / (1 + 1 + 1))%Qc b ;;
  jk <- ros_mult b k1 (fst p1) ;;
  k21 <- qadd k20 (qscale jk (qc (-4) 3 * h * rc_d c)%Qc) ;;
  p2 <- q_solve h k21 (fst p1) ;;
  let k2 := snd p2 in
  x0 <- qcpy (zeros n) x ;;
  x1 <- qadd x0 (qscale k1 (qc 1 4 * h)%Qc) ;;
  x2 <- qadd x1 (qscale k2 (qc 3 4 * h)%Qc) ;;
  Ret (fst p2, k1, k2, x2).
(** 118-144: the error norm *)
Definition sw_error (f : Qc -> qvec -> Outcome qvec) (n : nat) (t h : Qc) (k1 k2 next f1 : qvec) (r : ros) : Outcome (ros * Qc) :=
  k30 <- qcpy (zeros n) f1 ;;
  p3 <- q_solve h k30 r ;;
  let k3 := snd p3 in
  b0 <- qcpy (zeros n) next ;;
  b <- qadd b0 (qscale k3 (h * (1 + 1) / (1 + 1 + 1))%Qc) ;;
  k40 <- f (t + h * qc 5 1 / (1 + 1 + 1))%Qc b ;;
  d0 <- qcpy (zeros n) (qscale k1 (qc 2 3)) ;;
  d <- qadd d0 (qscale k2 (qc 6 1)) ;;
  jd <- ros_mult b d (fst p3) ;;
  k41 <- qadd k40 (qscale jd (h * rc_d c)%Qc) ;;
  p4 <- q_solve h k41 (fst p3) ;;
  let k4 := snd p4 in
  e0 <- qcpy (zeros n) k3 ;;
  e1 <- qsub e0 k2 ;;
  e2 <- qadd (qscale e1 (qc 5 1)) k1 ;;
  e3 <- qsub e2 k4 ;;
  err <- rc_norm c (qscale e3 (qc 1 8 * h)%Qc) ;;
  Ret (fst p4, err).
(** one pass of the loop 71-184 *)
Definition sw_attempt (needInit : bool) (s : st) : st * attempt QcNum :=
  let (s1, o) := if needInit then q_init false s else (s, Ret tt) in
  let t := q_t s1 in let x := q_x s1 in let h := q_h s1 in let f0 := q_f0 s1 in
  let upd_w r w := mkRst t x h f0 (q_k s1) r w in
  qfail s1 o (fun _ =>
  qfail s1 (rc_before c t x f0 (q_w s1)) (fun w1 =>
  qfail (upd_w (q_ros s1) w1) (ev_start ev x t w1) (fun w2 =>
  let s2 := upd_w (q_ros s1) w2 in
  let f := rc_rhs c w2 in
  qfail s2 (sw_stages f (q_k s1) t x f0 h (q_ros s1)) (fun p =>
  let '(r1, k1, k2, next) := p in
  qfail s2 (f (t + h)%Qc next) (fun f1 =>
  qfail s2 (if rc_nocheck c then Ret (r1, 0%Qc) else sw_error f (q_k s1) t h k1 k2 next f1 r1) (fun q =>
  let (r2, err) := q in
  let '(h', accept, change) := if rc_nocheck c then (h, true, false) else rc_sc c h err in
  let hnew := if change then h' else h in
  if accept then
    qfail (upd_w r2 w2) (ev_end ev x next (t + h)%Qc w2) (fun e =>
    let (w3, er) := e in
    let s3 g := mkRst (ev_t er) (ev_x er) hnew g (q_k s1) r2 w3 in
    qfail (mkRst (ev_t er) (ev_x er) h f0 (q_k s1) r2 w3) (if ev_trunc er then rc_rhs c w3 (ev_t er) (ev_x er) else Ret f1) (fun g =>
    if change && Qcleb hnew (rc_hmin c) then (s3 g, ATooSmall)
    else (s3 g, AAccepted (mkPost (N:=QcNum) h true change (ev_trunc er) err (ev_izf er) (ev_type er)))))
  else
    let s3 := mkRst t x hnew f0 (q_k s1) r2 w2 in
    if change && Qcleb hnew (rc_hmin c) then (s3, ATooSmall)
    else (s3, ARejected (mkPost (N:=QcNum) h false change false err None 0%Z)))))))).
(** SW2_4::doStep 67-185, for at most fuel passes *)
Fixpoint sw_loop (fuel : nat) (needInit : bool) (s : st) : st * list (postarg QcNum) * option (attempt QcNum) :=
  match fuel with
  | O => (s, [], None)
  | S k => match sw_attempt needInit s with
           | (s', ARejected a) => let '(s2, l, r) := sw_loop k false s' in (s2, a :: l, r)
           | (s', AAccepted a) => (s', [a], Some (AAccepted a))
           | (s', r) => (s', [], Some r)
           end
  end.
Definition sw_step (fuel : nat) (s : st) := sw_loop fuel true s.
End Solvers.
