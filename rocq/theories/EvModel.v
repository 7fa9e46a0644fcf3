(** EvModel.v - event location by linear interpolation.
    Models /repo/include/ode_num_int/ode/LinearOdeEventController.h and the parts of interfaces/OdeRhs.h it calls.
    The model being integrated (OdeRhs) has a phase state P; zeroFunctions overwrites its destination; the calls may throw.
    Simplification: the interpolator argument of atStepEnd, unused by this class, is left out. *)
From Coq Require Import List Arith Bool ZArith.
From Verif Require Import Base VecModel VOps RkModel.
Import ListNotations.
Local Open Scope nat_scope.

Section Ev.
Context (N : Num).
Notation T := (nT N).
Notation vec := (list T).

(** interfaces/OdeRhs.h 53-79: zeroFuncCount, zeroFuncFlags, zeroFunctions, switchPhaseState, truncateStep *)
Record evrhs (P : Type) : Type := mkEvRhs {
  zfCount : nat;
  zfFlags : list Z;
  zeroFunctions : P -> T -> vec -> Outcome vec;
  switchPhase : P -> list Z -> T -> vec -> Outcome (P * vec);
  truncateStep : P -> T -> vec -> Outcome (bool * T * vec) }.

(** LinearOdeEventController.h 129-140 *)
Record ctl : Type := mkCtl { c_clean : bool; c_haveZf : bool; c_rec : bool; c_zf1 : vec; c_zf2 : vec; c_flags : list Z; c_state : list Z; c_t1 : T }.
(** 21-25; the flag m_haveRecomputedZf and the vectors get their values in init *)
Definition ctl_new : ctl := mkCtl true false false [] [] [] [] (n0 N).

(** s(x) 168-170 *)
Definition sgn (x : T) : Z := if nltb N x (n0 N) then (-1)%Z else if nltb N (n0 N) x then 1%Z else 0%Z.
(** s(x,flags) 172-184 *)
Definition sgnf (x : T) (fl : Z) : Z :=
  match Z.land fl 3 with
  | 1%Z => if nleb N x (n0 N) then 0%Z else 1%Z
  | 2%Z => if nleb N (n0 N) x then 0%Z else (-1)%Z
  | 3%Z => sgn x
  | _ => 0%Z
  end.
(** xz 186-201 *)
Definition xz (fl st : Z) (x2 : T) : bool :=
  match Z.land fl 3 with
  | 2%Z => (Z.eqb st (-1) && nleb N (n0 N) x2) || (Z.eqb st 0 && nltb N (n0 N) x2)
  | 1%Z => (Z.eqb st 1 && nleb N x2 (n0 N)) || (Z.eqb st 0 && nltb N x2 (n0 N))
  | 3%Z => negb (Z.eqb (sgn x2) st)
  | _ => false
  end.
Definition recomputed (fl : Z) : bool := negb (Z.eqb (Z.land fl 4) 0).

Section Ctl.
Context {P : Type} (m : evrhs P).
(** reset 27-29 *)
Definition c_reset (c : ctl) : ctl := mkCtl true (c_haveZf c) (c_rec c) (c_zf1 c) (c_zf2 c) (c_flags c) (c_state c) (c_t1 c).
(** init 142-166 *)
Definition c_init (c : ctl) : ctl :=
  let nz := zfCount P m in
  mkCtl false (0 <? nz) (existsb recomputed (zfFlags P m)) (vresize N nz (c_zf1 c)) (vresize N nz (c_zf2 c)) (zfFlags P m) (repeat 0%Z nz) (c_t1 c).
(** atStepStart 31-43 *)
Definition c_start (p : P) (x1 : vec) (t1 : T) (c0 : ctl) : Outcome ctl :=
  let c := mkCtl (c_clean c0) (c_haveZf c0) (c_rec c0) (c_zf1 c0) (c_zf2 c0) (c_flags c0) (c_state c0) t1 in
  if negb (c_clean c) then Ret c else
  let c1 := c_init c in
  if negb (c_haveZf c1) then Ret c1 else
  z <- zeroFunctions P m p t1 x1 ;;
  st <- ofor 0 (length z) (fun i st => x <- rdat z i ;; fl <- rd (c_flags c1) i ;; wr st i (sgnf x fl)) (c_state c1) ;;
  Ret (mkCtl false true (c_rec c1) z (c_zf2 c1) (c_flags c1) st t1).
(** 57-63: the indices of zero functions that changed their sign *)
Definition changed (c : ctl) (z2 : vec) : Outcome (list nat) :=
  ofor 0 (length (c_zf1 c)) (fun i l => x2 <- rdat z2 i ;; st <- rd (c_state c) i ;; fl <- rd (c_flags c) i ;;
    Ret (if xz fl st x2 then l ++ [i] else l)) [].
(** 71-85: tmin, itmin (~0u is None) *)
Definition earliest (z1 z2 : vec) (l : list nat) : Outcome (T * option nat) :=
  ofold (fun st i => a <- rdat z1 i ;; b <- rdat z2 i ;;
    let t := ndiv N a (nsub N a b) in
    Ret (if nltb N t (fst st) then (t, Some i) else st)) l (n1 N, None).
(** 104-124 *)
Definition c_update (rec : bool) (z1 z2 zb : vec) (flags : list Z) (tmin : T) (itmin : nat) (tt : Z) (st : list Z) : Outcome (vec * list Z) :=
  ofor 0 (length z1) (fun i s =>
    fl <- rd flags i ;;
    if recomputed fl then
      z <- rdat zb i ;; z1' <- wrat (fst s) i z ;; st' <- wr (snd s) i (sgnf z fl) ;; Ret (z1', st')
    else
      a <- rdat (fst s) i ;; b <- rdat z2 i ;;
      let z := nadd N (nmul N a (nsub N (n1 N) tmin)) (nmul N b tmin) in
      z1' <- wrat (fst s) i z ;;
      if Nat.eqb i itmin
      then st' <- wr (snd s) i (if Z.eqb (Z.land fl 3) 3 then tt else sgnf z fl) ;; Ret (z1', st')
      else Ret (z1', snd s)) (z1, st).
(** atStepEnd 45-127.  ASSERTs are not compiled in release builds. *)
Definition c_end (p : P) (x1 x2 : vec) (t2 : T) (c : ctl) : Outcome (P * ctl * evres N) :=
  if negb (c_haveZf c) then
    r <- truncateStep P m p t2 x2 ;;
    let '(b, t, x) := r in Ret (p, c, mkEvres x t b None 0%Z)
  else
  z2 <- zeroFunctions P m p t2 x2 ;;
  l <- changed c z2 ;;
  match l with
  | [] => Ret (p, mkCtl (c_clean c) (c_haveZf c) (c_rec c) z2 (c_zf1 c) (c_flags c) (c_state c) (c_t1 c), mkEvres x2 t2 false None 0%Z)
  | _ =>
    e <- earliest (c_zf1 c) z2 l ;;
    let tmin := fst e in
    let h := nsub N t2 (c_t1 c) in
    let t := nadd N (c_t1 c) (nmul N h tmin) in
    x <- ladd (lscale x2 tmin) (lscale x1 (nsub N (n1 N) tmin)) ;;
    match snd e with
    | None => Throw                                     (* m_zf2[~0u], at() *)
    | Some itmin =>
      zt <- rdat z2 itmin ;;
      let tt := sgn zt in
      tr <- wr (repeat 0%Z (zfCount P m)) itmin tt ;;
      px <- switchPhase P m p tr t x ;;
      let (p', x') := px in
      zb <- (if c_rec c then zeroFunctions P m p' t x' else Ret []) ;;
      r <- c_update (c_rec c) (c_zf1 c) z2 zb (c_flags c) tmin itmin tt (c_state c) ;;
      Ret (p', mkCtl (c_clean c) (c_haveZf c) (c_rec c) (fst r) z2 (c_flags c) (snd r) (c_t1 c), mkEvres x' t true (Some itmin) tt)
    end
  end.
(** The controller as the solvers see it; the world is the controller together with the phase state. *)
Definition linear_events : events N (ctl * P) :=
  mkEvents (fun w => (c_reset (fst w), snd w))
    (fun x1 t1 w => c <- c_start (snd w) x1 t1 (fst w) ;; Ret (c, snd w))
    (fun x1 x2 t2 w => r <- c_end (snd w) x1 x2 t2 (fst w) ;; let '(p, c, e) := r in Ret ((c, p), e)).
End Ctl.
End Ev.
Arguments mkEvRhs {N P} _ _ _ _ _.
Arguments zfCount {N P} _.
Arguments zfFlags {N P} _.
Arguments zeroFunctions {N P} _ _ _ _.
Arguments switchPhase {N P} _ _ _ _ _.
Arguments truncateStep {N P} _ _ _ _.
Arguments mkCtl {N} _ _ _ _ _ _ _ _.
Arguments c_clean {N} _.
Arguments c_haveZf {N} _.
Arguments c_rec {N} _.
Arguments c_zf1 {N} _.
Arguments c_zf2 {N} _.
Arguments c_flags {N} _.
Arguments c_state {N} _.
Arguments c_t1 {N} _.
Arguments ctl_new {N}.
Arguments sgn {N} x.
Arguments sgnf {N} x fl.
Arguments xz {N} fl st x2.
Arguments c_reset {N} c.
Arguments c_init {N P} m c.
Arguments c_start {N P} m p x1 t1 c0.
Arguments changed {N} c z2.
Arguments earliest {N} z1 z2 l.
Arguments c_update {N} rec z1 z2 zb flags tmin itmin tt st.
Arguments c_end {N P} m p x1 x2 t2 c.
Arguments linear_events {N P} m.
