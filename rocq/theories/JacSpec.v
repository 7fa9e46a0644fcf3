(** JacSpec.v - vocabulary for the statements about Jacobians. *)
From Coq Require Import List Arith Bool ZArith QArith Qcanon.
From Verif Require Import Base SMap SpModel SpSpec MapModel JacModel.
Import ListNotations.
Local Open Scope nat_scope.

Section JacSpec.
Context {N : Num}.
Notation T := (nT N).
Notation vec := (list T).
(** The mapping is the function F on vectors of size n, with values of size m. *)
Definition computes (g : vmapping N) (F : vec -> vec) (n m : nat) : Prop :=
  inSize g = n /\ outSize g = m /\ forall x, length x = n -> mapf g x = Ret (F x) /\ length (F x) = m.
(** x0 with dx added to component c. *)
Definition bumped (x0 : vec) (dx : T) (c : nat) : vec := upd x0 c (nadd N (nth c x0 (n0 N)) dx).
(** Change of output r when dx is added to variable c, and the difference quotient. *)
Definition change (F : vec -> vec) (x0 : vec) (dx : T) (r c : nat) : T :=
  nsub N (nth r (F (bumped x0 dx c)) (n0 N)) (nth r (F x0) (n0 N)).
Definition quotient (F : vec -> vec) (x0 : vec) (dx : T) (r c : nat) : T := ndiv N (change F x0 dx r c) dx.
(** The stored positions. *)
Definition stored (J : smat N) (r c : nat) : Prop := exists x, In ((r, c), x) (sdat J).
(** Output r of F depends only on the variables with a stored element in row r. *)
Definition respects (F : vec -> vec) (n : nat) (J : smat N) : Prop :=
  forall r x y, length x = n -> length y = n -> (forall c, stored J r c -> nth c x (n0 N) = nth c y (n0 N)) ->
    nth r (F x) (n0 N) = nth r (F y) (n0 N).
(** All stored elements are inside the size. *)
Definition well_sized (J : smat N) : Prop := forall r c, stored J r c -> r < fst (ssz J) /\ c < snd (ssz J).
(** Provider state between calls, when no trimmer is used: the recorded layout belongs to the stored matrix. *)
Definition sp_ok (p : sprov N) : Prop :=
  fast (spJ p) = true /\ row_major (sdat (spJ p)) /\
  (sdat (spJ p) <> [] -> lay_valid p = true /\ calc_layout (spJ p) = Ret (spLay p)).
End JacSpec.
(** F(x) = A x + b *)
Definition affine (n : nat) (A : nat -> nat -> Qc) (b : nat -> Qc) (F : list Qc -> list Qc) : Prop :=
  forall x, length x = n -> F x = map (fun r => (b r + qsum n (fun c => A r c * nth c x 0))%Qc) (seq 0 n).
(** Provider states reached without a trimmer, the mappings seen since the last reset being on vectors of size n. *)
Inductive sp_reach {N : Num} (dx : nT N) : nat -> sprov N -> Prop :=
| reach_new n : sp_reach dx n sp_new
| reach_reset n n' p : sp_reach dx n p -> sp_reach dx n' (sp_hardReset p)
| reach_compute n p g F x0 p' log : sp_reach dx n p -> computes g F n n -> length x0 = n ->
    sp_compute dx None g x0 p = Ret (p', log) -> sp_reach dx n p'.
