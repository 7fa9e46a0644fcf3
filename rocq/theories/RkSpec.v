(** RkSpec.v - vocabulary for the Runge-Kutta properties, independent of the code's loops. *)
From Coq Require Import List Arith Bool ZArith QArith Qcanon.
From Verif Require Import Base VecModel VOps RkModel.
Import ListNotations.
Local Open Scope nat_scope.

(** Entry a_{s,i} (i < s) of the strictly lower triangular matrix stored row by row without the diagonal. *)
Definition tri (s : nat) : nat := s * (s - 1) / 2.
Definition A_ (co : coeffs QcNum) (s i : nat) : Qc := nth (tri s + i) (co_a co) 0%Qc.
(** Entry b_s of result row [ix] of a method with [stages] stages; node c_s, c_0 = 0. *)
Definition B_ (co : coeffs QcNum) (stages ix s : nat) : Qc := nth (ix * stages + s) (co_b co) 0%Qc.
Definition C_ (co : coeffs QcNum) (s : nat) : Qc := match s with O => 0%Qc | S s' => nth s' (co_c co) 0%Qc end.
(** A table for [stages] stages and [nx] results. *)
Definition wf_table {N : Num} (co : coeffs N) (stages nx : nat) : Prop :=
  0 < stages /\ length (co_a co) = tri stages /\ length (co_b co) = stages * nx /\ length (co_c co) + 1 = stages.
(** Work space for [stages] stages, [n] variables, [nx] results, holding anything. *)
Definition shaped {N : Num} (o : output N) (stages n nx : nat) : Prop :=
  length (o_k o) = stages /\ length (o_x2 o) = nx /\ length (o_buf o) = n /\
  (forall v, In v (o_k o) -> length v = n) /\ (forall v, In v (o_x2 o) -> length v = n).
(** A right-hand side that always delivers a vector of the right length. *)
Definition good_rhs {N : Num} (n : nat) (f : nT N -> list (nT N) -> Outcome (list (nT N))) : Prop :=
  forall t x, length x = n -> exists y, f t x = Ret y /\ length y = n.
(** Component j of a vector. *)
Definition cmp_ (v : list Qc) (j : nat) : Qc := nth j v 0%Qc.

(** The textbook explicit Runge-Kutta step: the evaluations (time, argument) with the slopes k they gave. *)
Definition textbook_stages (co : coeffs QcNum) (stages n : nat) (f : Qc -> list Qc -> Outcome (list Qc)) (x1 : list Qc) (t1 h : Qc)
    (evals : list (Qc * list Qc)) (k : list (list Qc)) : Prop :=
  length evals = stages /\ length k = stages /\
  forall s, s < stages -> exists arg,
    nth_error evals s = Some ((t1 + h * C_ co s)%Qc, arg) /\
    f (t1 + h * C_ co s)%Qc arg = Ret (nth s k []) /\ length arg = n /\
    forall j, j < n -> cmp_ arg j = (cmp_ x1 j + h * qsum s (fun i => A_ co s i * cmp_ (nth i k []) j))%Qc.
Definition textbook_result (co : coeffs QcNum) (stages n ix : nat) (x1 : list Qc) (h : Qc) (k : list (list Qc)) (x2 : list Qc) : Prop :=
  length x2 = n /\
  forall j, j < n -> cmp_ x2 j = (cmp_ x1 j + h * qsum stages (fun s => B_ co stages ix s * cmp_ (nth s k []) j))%Qc.
(** * Rooted trees (with ordered children: every rooted tree is represented, some several times) *)
Inductive tree : Type := Node (children : list tree).
Fixpoint order (t : tree) : nat :=
  match t with Node l => S ((fix go (l : list tree) := match l with [] => 0 | c :: r => order c + go r end) l) end.
(** The density of a tree: the order times the densities of the subtrees. *)
Fixpoint density (t : tree) : nat :=
  match t with
  | Node l => S ((fix go (l : list tree) := match l with [] => 0 | c :: r => order c + go r end) l) *
              ((fix go (l : list tree) := match l with [] => 1 | c :: r => density c * go r end) l)
  end.
(** The weight of a tree at stage i: the product over the children c of sum_{j<i} a_ij * (weight of c at stage j). *)
Fixpoint stage_weight (co : coeffs QcNum) (t : tree) (i : nat) : Qc :=
  match t with
  | Node l => (fix go (l : list tree) : Qc :=
                 match l with [] => 1%Qc | c :: r => (qsum i (fun j => A_ co i j * stage_weight co c j) * go r)%Qc end) l
  end.
Definition weight (co : coeffs QcNum) (stages ix : nat) (t : tree) : Qc :=
  qsum stages (fun i => B_ co stages ix i * stage_weight co t i)%Qc.
Definition qn (n : nat) : Qc := Q2Qc (inject_Z (Z.of_nat n)).
(** The order conditions up to order p, for result row [ix]; and the nodes are the row sums. *)
Definition order_conditions (co : coeffs QcNum) (stages ix p : nat) : Prop :=
  forall t, order t <= p -> weight co stages ix t = (1 / qn (density t))%Qc.
Definition row_sums (co : coeffs QcNum) (stages : nat) : Prop :=
  forall s, s < stages -> qsum s (fun i => A_ co s i) = C_ co s.
(** A right-hand side that, given a vector of the right length, delivers one of the right length or fails with an exception. *)
Definition safe_rhs {N : Num} (n : nat) (f : nT N -> list (nT N) -> Outcome (list (nT N))) : Prop :=
  forall t x, length x = n -> f t x = Throw \/ exists y, f t x = Ret y /\ length y = n.
(** What an observer of a step sees: slopes, results and evaluations (not the spare buffer). *)
Definition visible {N : Num} (r : Outcome (output N * list (nT N * list (nT N)))) : Outcome (list (list (nT N)) * list (list (nT N)) * list (nT N * list (nT N))) :=
  match r with Ret (o, log) => Ret (o_k o, o_x2 o, log) | Throw => Throw | UB => UB end.
(** The same table with the shortcut switched off. *)
Definition no_shortcut {N : Num} (co : coeffs N) : coeffs N := mkCo (co_a co) (co_b co) (co_c co) (-1)%Z.
(** Result row [ix] is literally the last stage row, followed by a coefficient that compares equal to zero (any number system). *)
Definition row_repeats {N : Num} (co : coeffs N) (stages ix : nat) : Prop :=
  (forall i, i < stages - 1 -> nth_error (co_b co) (ix * stages + i) = nth_error (co_a co) (tri (stages - 1) + i)) /\
  exists z, nth_error (co_b co) (ix * stages + (stages - 1)) = Some z /\ neqb N z (n0 N) = true.
(** One fixed step without events, by the textbook: the state moves from (t, x) to (t', x'). *)
Definition textbook_step (co : coeffs QcNum) (stages n : nat) (f : Qc -> list Qc -> Outcome (list Qc)) (h : Qc) (s s' : Qc * list Qc) : Prop :=
  fst s' = (fst s + h)%Qc /\ exists evals k, textbook_stages co stages n f (snd s) (fst s) h evals k /\ textbook_result co stages n 0 (snd s) h k (snd s').
(** Linear right-hand sides x' = M x, and the vectors M^m x, component by component. *)
Definition linear_rhs (n : nat) (M : nat -> nat -> Qc) (t : Qc) (x : list Qc) : Outcome (list Qc) :=
  Ret (map (fun i => qsum n (fun j => M i j * cmp_ x j)%Qc) (seq 0 n)).
Fixpoint mpow (n : nat) (M : nat -> nat -> Qc) (m : nat) (x : list Qc) (i : nat) : Qc :=
  match m with O => cmp_ x i | S m' => qsum n (fun j => M i j * mpow n M m' x j)%Qc end.
Fixpoint qpow (x : Qc) (m : nat) : Qc := match m with O => 1%Qc | S m' => (x * qpow x m')%Qc end.
(** Right-hand sides that depend on time only, polynomially: component i is sum_k a_i,k (t - t1)^k, k < deg. *)
Definition poly_rhs (n deg : nat) (a : nat -> nat -> Qc) (t1 : Qc) (t : Qc) (x : list Qc) : Outcome (list Qc) :=
  Ret (map (fun i => qsum deg (fun k => a i k * qpow (t - t1) k)%Qc) (seq 0 n)).
(** The shortcut index of a table is unused (negative), or names a result row that repeats the last stage row. *)
Definition shortcut_ok {N : Num} (co : coeffs N) (stages : nat) : Prop :=
  (co_last co < 0)%Z \/ exists ix, co_last co = Z.of_nat ix /\ 2 <= stages /\ row_repeats co stages ix.
(** The tree with m + 1 nodes in a chain. *)
Fixpoint tall (m : nat) : tree := match m with O => Node [] | S m' => Node [tall m'] end.
