(** BroSpec.v - vocabulary for the statements about quasi-Newton directions: the textbook updates and the sequence of
    matrices a history of calls should use, without reference to sparse storage or factorization. *)
From Coq Require Import List Arith Bool QArith Qcanon.
From Verif Require Import Base SMap SpModel SpSpec MapModel JacModel LUModel LUSpec NewtModel BroModel.
Import ListNotations.
Local Open Scope nat_scope.

Definition matrix : Type := nat -> nat -> Qc.
Definition entries_ : Type := list ((nat * nat) * Qc).
Definition vdiff (x y : list Qc) (i : nat) : Qc := (vfun x i - vfun y i)%Qc.
(** B v, component i, and the square of the Euclidean norm *)
Definition mapply (n : nat) (B : matrix) (v : nat -> Qc) (i : nat) : Qc := qsum n (fun c => B i c * v c)%Qc.
Definition normsq (n : nat) (v : nat -> Qc) : Qc := qsum n (fun c => v c * v c)%Qc.
(** square of the Frobenius distance *)
Definition distsq (n : nat) (A B : matrix) : Qc := qsum n (fun i => qsum n (fun j => (A i j - B i j) * (A i j - B i j)))%Qc.
Definition storedb (e : entries_) (i j : nat) : bool := existsb (fun x => Nat.eqb (fst (fst x)) i && Nat.eqb (snd (fst x)) j) e.

(** Broyden's (good) update  B + (y - B s) s^T / |s|^2  *)
Definition broyden_next (n : nat) (_ : entries_) (B : matrix) (s y : nat -> Qc) : matrix :=
  fun i j => (B i j + (y i - mapply n B s i) / normsq n s * s j)%Qc.
(** the same on the stored positions only *)
Definition fake_next (n : nat) (e : entries_) (B : matrix) (s y : nat -> Qc) : matrix :=
  fun i j => if storedb e i j then broyden_next n e B s y i j else B i j.
(** the share of |s|^2 in the stored positions of a row *)
Definition row_share (n : nat) (e : entries_) (s : nat -> Qc) (i : nat) : Qc :=
  (qsum n (fun j => if storedb e i j then s j * s j else 0) / normsq n s)%Qc.

(** An array-backed n x n matrix: in range, each position at most once, in row-major order. *)
Definition square (n : nat) (J : smat QcNum) : Prop :=
  fast J = true /\ ssz J = (n, n) /\ row_major (sdat J) /\ (forall r c, stored (sdat J) r c -> r < n /\ c < n).
(** A pattern LUFactorizer handles without pivoting. *)
Definition good_pattern (n : nat) (e : entries_) : Prop := e <> [] /\ acceptable e n /\ stencil_covers e n.

(** [J0 x] are the elements of the Jacobian computed at x.  [keep]: a hard reset leaves the Jacobian in place (otherwise it
    is forgotten).  [pre]: when computeJacobian may be called. *)
Definition provides {P} (jp : jprov P) (n : nat) (J0 : list Qc -> entries_) (keep : bool) (pre : P -> Prop) : Prop :=
  (forall p J, jp_J jp (jp_set jp p J) = J) /\
  (forall p, if keep then jp_J jp (jp_hard jp p) = jp_J jp p else mat_empty (jp_J jp (jp_hard jp p)) = true) /\
  (forall x p, length x = n -> pre p -> exists p', jp_compute jp x p = Ret p' /\ sdat (jp_J jp p') = J0 x /\ square n (jp_J jp p')) /\
  (forall x, length x = n -> good_pattern n (J0 x)).
Definition when_empty {P} (jp : jprov P) (p : P) : Prop := mat_empty (jp_J jp p) = true.
Definition any_time {P} (p : P) : Prop := True.
(** The elements of the Jacobian that DefaultJacobianProvider computes at x. *)
Definition computed (dx : Qc) (jt : option (trimmer QcNum)) (g : vmapping QcNum) (x : list Qc) : entries_ :=
  match default_provider (N:=QcNum) dx jt g x with Ret J => sdat J | _ => [] end.
(** The calls of a history use residuals of F, and two consecutive points between resets differ. *)
Fixpoint follows (n : nat) (F : list Qc -> list Qc) (h : list dev) (prev : option (list Qc)) : Prop :=
  match h with
  | [] => True
  | DReset _ :: t => follows n F t None
  | DReport _ :: t => follows n F t prev
  | DDir x f _ :: t => length x = n /\ f = F x /\ prev <> Some x /\ follows n F t (Some x)
  end.
(** the residuals of the direction calls of a history *)
Fixpoint residuals (h : list dev) : list (list Qc) :=
  match h with [] => [] | DDir _ f _ :: t => f :: residuals t | _ :: t => residuals t end.

(** The matrices a history of calls should use: the computed Jacobian at first (or after it was forgotten), the same matrix
    in the first call after a reset, the updated one otherwise.  The last argument lists, for each direction computed, the
    matrix and the residual.  Side conditions: sizes, nonsingularity, two consecutive points differ, and the update changes only stored
    positions. *)
Section Run.
Context (n : nat) (next : entries_ -> matrix -> (nat -> Qc) -> (nat -> Qc) -> matrix) (J0 : list Qc -> entries_) (keep : bool).
Inductive qn_run : list dev -> option (matrix * entries_) -> option (list Qc * list Qc) -> list (matrix * list Qc) -> Prop :=
| QNil : forall B prev, qn_run [] B prev []
| QReset : forall hard t B prev q, qn_run t (if hard && negb keep then None else B) None q -> qn_run (DReset hard :: t) B prev q
| QReport : forall ok t B prev q, qn_run t B prev q -> qn_run (DReport ok :: t) B prev q
| QCompute : forall x f it t prev q, length x = n -> length f = n -> leading_nonsingular n (mval (J0 x)) ->
    qn_run t (Some (mval (J0 x), J0 x)) (Some (x, f)) q ->
    qn_run (DDir x f it :: t) None prev ((mval (J0 x), f) :: q)
| QSame : forall x f it t B e q, length x = n -> length f = n -> leading_nonsingular n B ->
    qn_run t (Some (B, e)) (Some (x, f)) q ->
    qn_run (DDir x f it :: t) (Some (B, e)) None ((B, f) :: q)
| QUpdate : forall x f it t B e xp fp B' q, length x = n -> length f = n -> x <> xp ->
    (forall i j, i < n -> j < n -> B' i j = next e B (vdiff x xp) (vdiff f fp) i j) ->
    (forall i j, i < n -> j < n -> B' i j <> B i j -> stored e i j) ->
    leading_nonsingular n B' ->
    qn_run t (Some (B', e)) (Some (x, f)) q ->
    qn_run (DDir x f it :: t) (Some (B, e)) (Some (xp, fp)) ((B', f) :: q).
End Run.
(** d is minus the solution of the linear system with the matrix and the residual. *)
Definition newton_like (n : nat) (q : matrix * list Qc) (d : list Qc) : Prop :=
  length d = n /\ solves n (fst q) (vfun d) (fun i => - vfun (snd q) i)%Qc.

(** ** Lazy updates, run by run *)
(** consecutive differences of a list of points with residuals *)
Fixpoint steps (prev : list Qc * list Qc) (h : list (list Qc * list Qc)) : list ((nat -> Qc) * (nat -> Qc)) :=
  match h with
  | [] => []
  | p :: t => (vdiff (fst p) (fst prev), vdiff (snd p) (snd prev)) :: steps p t
  end.
(** A run (or an attempt of one): hard reset before it?, the first point and residual, the other ones, and what
    reportSuccess was told (nothing if an observer ended the run or another attempt follows). *)
Record lrun : Type := mkRun { r_hard : bool; r_first : list Qc * list Qc; r_rest : list (list Qc * list Qc); r_report : option bool }.
Fixpoint number_from (k : nat) (l : list (list Qc * list Qc)) : list dev :=
  match l with [] => [] | (x, f) :: t => DDir x f k :: number_from (S k) t end.
Definition run_events (r : lrun) : list dev :=
  DReset (r_hard r) :: number_from 0 (r_first r :: r_rest r) ++ match r_report r with Some b => [DReport b] | None => [] end.
Definition runs_events (rs : list lrun) : list dev := flat_map run_events rs.
(** what the stored positions of D get from the steps of a run: each step adds the whole discrepancy from B *)
Definition lazy_delta (n : nat) (e : entries_) (B : matrix) (st : list ((nat -> Qc) * (nat -> Qc))) (D : matrix) : matrix :=
  fold_left (fun D sy i j => (D i j + (fake_next n e B (fst sy) (snd sy) i j - B i j))%Qc) st D.
(** sizes; two consecutive points differ *)
Fixpoint apart (n : nat) (p : list Qc * list Qc) (l : list (list Qc * list Qc)) : Prop :=
  length (fst p) = n /\ length (snd p) = n /\
  match l with [] => True | q :: t => fst q <> fst p /\ apart n q t end.
(** The matrix B of a run, and the accumulated increment D at its beginning. *)
Inductive lazy_start (n : nat) (J0 : list Qc -> entries_) (x : list Qc) : option (matrix * entries_ * matrix) -> jaction -> matrix -> entries_ -> matrix -> Prop :=
| SNew : forall a, lazy_start n J0 x None a (mval (J0 x)) (J0 x) (fun _ _ => 0%Qc)
| SRecompute : forall st, lazy_start n J0 x st RecomputeJ (mval (J0 x)) (J0 x) (fun _ _ => 0%Qc)
| SLeave : forall B e D, lazy_start n J0 x (Some (B, e, D)) LeaveJ B e D
| SUpdate : forall B e D, lazy_start n J0 x (Some (B, e, D)) UpdateJ (fun i j => (B i j + D i j)%Qc) e (fun _ _ => 0%Qc).
(** what the next run does, given the report and the number of directions computed in this one *)
Definition next_use (lazy : nat) (rep : option bool) (k : nat) (a : jaction) : jaction :=
  match rep with
  | None => a
  | Some false => RecomputeJ
  | Some true => if k <=? lazy then LeaveJ else UpdateJ
  end.
(** The matrix and the residual of every direction of a sequence of runs: one matrix in each run. *)
Inductive lazy_runs (n lazy : nat) (J0 : list Qc -> entries_) : list lrun -> option (matrix * entries_ * matrix) -> jaction -> list (matrix * list Qc) -> Prop :=
| LRNil : forall st a, lazy_runs n lazy J0 [] st a []
| LRRun : forall r rs st a B e D q,
    apart n (r_first r) (r_rest r) ->
    lazy_start n J0 (fst (r_first r)) (if r_hard r then None else st) (if r_hard r then RecomputeJ else a) B e D ->
    leading_nonsingular n B ->
    lazy_runs n lazy J0 rs (Some (B, e, lazy_delta n e B (steps (r_first r) (r_rest r)) D))
      (next_use lazy (r_report r) (S (length (r_rest r))) (if r_hard r then RecomputeJ else a)) q ->
    lazy_runs n lazy J0 (r :: rs) st a (map (fun p => (B, snd p)) (r_first r :: r_rest r) ++ q).

(** ** Hart *)
(** Each row has a stored element on the diagonal or to the right of it. *)
Definition row_ends (n : nat) (e : entries_) : Prop := forall i, i < n -> exists c, i <= c /\ stored e i c.
(** What is asked of a history: sizes; the computed Jacobian is nonsingular and its rows reach the diagonal; every step
    between two calls is visible to the update in each row (LUSpec.hart_visible). *)
Fixpoint hart_fits (n : nat) (J0 : list Qc -> entries_) (h : list dev) (e : option entries_) (prev : option (list Qc)) : Prop :=
  match h with
  | [] => True
  | DReset hard :: t => hart_fits n J0 t (if hard then None else e) None
  | DReport _ :: t => hart_fits n J0 t e prev
  | DDir x f _ :: t => length x = n /\ length f = n /\
      match e, prev with
      | None, _ => leading_nonsingular n (mval (J0 x)) /\ row_ends n (J0 x)
      | Some e0, None => True
      | Some e0, Some xp => hart_visible e0 n (map (vdiff x xp) (seq 0 n))
      end /\ hart_fits n J0 t (Some (match e with None => J0 x | Some e0 => e0 end)) (Some x)
  end.
(** The matrices used: the computed Jacobian at first and after a hard reset, the same one in the first call after a soft reset, and
    otherwise one that maps the last step to the change of the residual and has the profile of the computed Jacobian. *)
Inductive sec_run (n : nat) (J0 : list Qc -> entries_) : list dev -> option (matrix * entries_) -> option (list Qc * list Qc) -> list (matrix * list Qc) -> Prop :=
| HNil : forall B prev, sec_run n J0 [] B prev []
| HReset : forall (hard : bool) t B prev q, sec_run n J0 t (if hard then None else B) None q -> sec_run n J0 (DReset hard :: t) B prev q
| HReport : forall ok t B prev q, sec_run n J0 t B prev q -> sec_run n J0 (DReport ok :: t) B prev q
| HCompute : forall x f it t prev q, sec_run n J0 t (Some (mval (J0 x), J0 x)) (Some (x, f)) q ->
    sec_run n J0 (DDir x f it :: t) None prev ((mval (J0 x), f) :: q)
| HSame : forall x f it t B e q, sec_run n J0 t (Some (B, e)) (Some (x, f)) q ->
    sec_run n J0 (DDir x f it :: t) (Some (B, e)) None ((B, f) :: q)
| HUpdate : forall x f it t B e xp fp B' q,
    (forall i, i < n -> mapply n B' (vdiff x xp) i = vdiff f fp i) ->
    (forall i j, i < n -> j < n -> ~ in_skyline e i j -> B' i j = 0%Qc) ->
    sec_run n J0 t (Some (B', e)) (Some (x, f)) q ->
    sec_run n J0 (DDir x f it :: t) (Some (B, e)) (Some (xp, fp)) ((B', f) :: q).
