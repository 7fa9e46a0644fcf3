(** OutModel.v - model of ode/ode_solver_output.h and of VectorTemplate::toString (la/VectorTemplate.h 443-459).
    Times and states are exact numbers; text formatting of numbers is not modelled: a line is the list of the numbers printed. *)
From Coq Require Import List Arith Bool ZArith QArith Qcanon String Ascii.
From Verif Require Import Base SpModel RkModel ParModel UtilModel.
Import ListNotations.
Local Open Scope nat_scope.

(** * OdeSolverStreamOutputOption::D 73-109 *)
Record thin : Type := mkThin { th_T : Qc; th_start : Qc; th_rep : Qc }.
(** constructor 76-89: output timing, start time, report time.  Opening the file is not modelled. *)
Definition th_new (T start : Qc) : thin := mkThin T start (start - (1 + 1) * T)%Qc.
(** outputNow 95-103 *)
Definition outputNow (t : Qc) (force : bool) (d : thin) : bool * thin :=
  let r := force || Qcleb (th_T d) 0 || Qcleb ((th_rep d - th_start d) / th_T d + 1) ((t - th_start d) / th_T d) in
  (r, if r then mkThin (th_T d) (th_start d) t else d).
(** a sequence of calls of outputNow and its results *)
Fixpoint decide (calls : list (Qc * bool)) (d : thin) : list bool :=
  match calls with [] => [] | (t, f) :: r => let (b, d') := outputNow t f d in b :: decide r d' end.

(** What an observer sees after a step attempt: the solver's current time and state, and the argument (interfaces/OdeSolver.h 25-57). *)
Record obs : Type := mkObs { ob_t : Qc; ob_x : list Qc; ob_a : postarg QcNum }.

(** * OdeSolverStatisticsOutput: the step counters 148-152 (32-bit unsigned), afterStep 180-191.  The timers and the counters of right-hand side calls are not modelled. *)
Record stat : Type := mkStat { st_steps : Z; st_rej : Z; st_chg : Z; st_trunc : Z; st_sum : Qc }.
Definition stat_new : stat := mkStat 0 0 0 0 0%Qc.
Definition inc (b : bool) (z : Z) : Z := if b then ((z + 1) mod UINT_MOD)%Z else z.
Definition stat_after (s : stat) (o : obs) : stat :=
  let a := ob_a o in
  mkStat (inc true (st_steps s)) (inc (negb (pa_accepted a)) (st_rej s)) (inc (pa_changed a) (st_chg s)) (inc (pa_trunc a) (st_trunc s))
         (if pa_accepted a then (st_sum s + pa_h a)%Qc else st_sum s).
(** printStats 257: the average step size; the divisor is an unsigned difference *)
Definition stat_average (s : stat) : Qc := (st_sum s / Q2Qc (inject_Z ((st_steps s - st_rej s) mod UINT_MOD)))%Qc.

(** * OdeSolverStepGeneralConsoleOutput: afterStep 307-331.  Newton iteration lines 333-350 are not modelled. *)
Record gline : Type := mkLine { gl_n : Z; gl_t : Qc; gl_h : Qc; gl_err : Qc; gl_accepted : bool; gl_changed : bool; gl_trunc : bool; gl_cause : option (nat * ascii) }.
Definition sign_char (z : Z) : ascii := if (0 <? z)%Z then "+"%char else if (z <? 0)%Z then "-"%char else "?"%char.
Definition line_of (n : Z) (o : obs) : gline :=
  let a := ob_a o in
  mkLine n (ob_t o) (pa_h a) (pa_err a) (pa_accepted a) (pa_changed a) (pa_trunc a)
    (if pa_trunc a then match pa_izf a with Some i => Some (i, sign_char (pa_type a)) | None => None end else None).
Record gcon : Type := mkGcon { gc_thin : thin; gc_n : Z; gc_lines : list gline }.
Definition gcon_new (T t0 : Qc) : gcon := mkGcon (th_new T t0) 0 [].
Definition gcon_after (s : gcon) (o : obs) : gcon :=
  let n := inc true (gc_n s) in
  let (b, d) := outputNow (ob_t o) (pa_trunc (ob_a o)) (gc_thin s) in
  mkGcon d n (if b then gc_lines s ++ [line_of n o] else gc_lines s).

(** * OdeSolverStepSolutionConsoleOutput *)
(** 2*sizeHalfLimit is an unsigned product (426) *)
Definition twice (L : nat) : Z := ((2 * Z.of_nat L) mod UINT_MOD)%Z.
(** The loop of addIndices 424-433 from i on, n = iend - ibegin.  None: the fuel is used up; n + 2 passes are enough when 2*limit does not wrap around,
    and when it does the loop never ends once i has come to the limit. *)
Fixpoint add_loop (fuel L n b i : nat) : option (list nat) :=
  match fuel with
  | O => None
  | S f =>
      if i <? n then
        if (i =? L) && (twice L <? Z.of_nat n)%Z then add_loop f L n b (n - L)
        else match add_loop f L n b (i + 1) with Some r => Some ((b + i) :: r) | None => None end
      else Some []
  end.
Definition addIndices (L b e : nat) : option (list nat) := add_loop (e - b + 2) L (e - b) b 0.
Definition oapp {A} (a b : option (list A)) : option (list A) := match a, b with Some x, Some y => Some (x ++ y) | _, _ => None end.
(** 435-441: positions, velocities, first-order variables.  Simplification: the unsigned difference n - 2*n2 is taken as a natural number (2*n2 <= n is the contract of OdeRhs). *)
Definition sol_indices (L n n2 : nat) : option (list nat) :=
  if n2 =? 0 then addIndices L 0 n
  else oapp (addIndices L 0 n2) (oapp (addIndices L n2 (2 * n2)) (addIndices L (2 * n2) n)).
(** writeHeaders 444-462: the names after "time" *)
Definition col_name (n2 i : nat) : string :=
  if (n2 =? 0) || (i <? n2) then ("x" ++ FormatInt (Z.of_nat i))%string
  else if i <? 2 * n2 then ("v" ++ FormatInt (Z.of_nat (i - n2)))%string
  else ("z" ++ FormatInt (Z.of_nat (i - 2 * n2)))%string.
Definition sol_header (n2 : nat) (idx : list nat) : list string := map (col_name n2) idx.
(** write 464-474: V::operator[] checks the index *)
Fixpoint pick (idx : list nat) (x : list Qc) : Outcome (list Qc) :=
  match idx with [] => Ret [] | i :: r => v <- rdat x i ;; q <- pick r x ;; Ret (v :: q) end.
Record scon : Type := mkScon { sc_thin : thin; sc_idx : list nat; sc_rows : list (Qc * list Qc) }.
Definition scon_write (t : Qc) (x : list Qc) (s : scon) : Outcome scon :=
  r <- pick (sc_idx s) x ;; Ret (mkScon (sc_thin s) (sc_idx s) (sc_rows s ++ [(t, r)])).
(** beforeFirstStep 370-377: the initial line is written without outputNow *)
Definition scon_new (T t0 : Qc) (x0 : list Qc) (idx : list nat) : Outcome scon := scon_write t0 x0 (mkScon (th_new T t0) idx []).
(** afterStep 476-481 *)
Definition scon_after (s : scon) (o : obs) : Outcome scon :=
  if pa_accepted (ob_a o) then
    let (b, d) := outputNow (ob_t o) false (sc_thin s) in
    let s' := mkScon d (sc_idx s) (sc_rows s) in
    if b then scon_write (ob_t o) (ob_x o) s' else Ret s'
  else Ret s.
Fixpoint scon_run (l : list obs) (s : scon) : Outcome scon := match l with [] => Ret s | o :: r => s' <- scon_after s o ;; scon_run r s' end.

(** * OdeSolverStepSolutionColumnwiseOutput *)
Record ccon : Type := mkCcon { cc_thin : thin; cc_cols : list (Qc * list Qc) }.
(** accum 561-569 *)
Definition cc_accum (mx : nat) (t : Qc) (x : list Qc) (s : ccon) : ccon :=
  if mx <=? List.length (cc_cols s) then s
  else let (b, d) := outputNow t false (cc_thin s) in mkCcon d (if b then cc_cols s ++ [(t, x)] else cc_cols s).
(** beforeFirstStep 498-506 *)
Definition cc_new (mx : nat) (T t0 : Qc) (x0 : list Qc) : ccon := cc_accum mx t0 x0 (mkCcon (th_new T t0) []).
(** afterStep 555-559 *)
Definition cc_after (mx : nat) (s : ccon) (o : obs) : ccon := if pa_accepted (ob_a o) then cc_accum mx (ob_t o) (ob_x o) s else s.
(** write 571-591: the times of the columns, and for each variable its index, its name and its value in each column *)
Fixpoint cc_row (ivar : nat) (cols : list (Qc * list Qc)) : Outcome (list Qc) :=
  match cols with [] => Ret [] | (_, x) :: r => v <- rdat x ivar ;; q <- cc_row ivar r ;; Ret (v :: q) end.
Definition cc_line (nvars : nat) (ids : list nat) (cols : list (Qc * list Qc)) (ivar : nat) : Outcome (nat * string * list Qc) :=
  nm <- varNameByIndex (Z.of_nat nvars) ids ivar ;; q <- cc_row ivar cols ;; Ret (ivar, nm, q).
Fixpoint cc_lines (nvars : nat) (ids : list nat) (cols : list (Qc * list Qc)) (ivars : list nat) : Outcome (list (nat * string * list Qc)) :=
  match ivars with [] => Ret [] | i :: r => l <- cc_line nvars ids cols i ;; q <- cc_lines nvars ids cols r ;; Ret (l :: q) end.
Definition cc_write (nvars : nat) (ids : list nat) (s : ccon) : Outcome (list Qc * list (nat * string * list Qc)) :=
  q <- cc_lines nvars ids (cc_cols s) (seq 0 nvars) ;; Ret (map fst (cc_cols s), q).

(** * VectorTemplate::toString 443-459: what is written between the separators; None is "..." *)
Fixpoint ts_loop (fuel L n i : nat) : option (list (option nat)) :=
  match fuel with
  | O => None
  | S f =>
      if i <? n then
        if (i =? L) && (twice L <? Z.of_nat n)%Z then match ts_loop f L n (n - L) with Some r => Some (None :: r) | None => None end
        else match ts_loop f L n (i + 1) with Some r => Some (Some i :: r) | None => None end
      else Some []
  end.
Definition toString_items (L n : nat) : option (list (option nat)) := ts_loop (n + 2) L n 0.
(** separators: ", " is written before every item met with i > 0 (447-448); [sep_loop] collects whether it is *)
Fixpoint sep_loop (fuel L n i : nat) : option (list bool) :=
  match fuel with
  | O => None
  | S f =>
      if i <? n then
        if (i =? L) && (twice L <? Z.of_nat n)%Z then match sep_loop f L n (n - L) with Some r => Some ((0 <? i) :: r) | None => None end
        else match sep_loop f L n (i + 1) with Some r => Some ((0 <? i) :: r) | None => None end
      else Some []
  end.
Definition toString_seps (L n : nat) : option (list bool) := sep_loop (n + 2) L n 0.
