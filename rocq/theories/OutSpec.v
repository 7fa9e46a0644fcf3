(** OutSpec.v - vocabulary for C48, C49, C61. *)
From Coq Require Import List Arith Bool ZArith QArith Qcanon.
From Verif Require Import Base SpModel RkModel UtilSpec OutModel.
Import ListNotations.
Local Open Scope nat_scope.

(** * Sequences of calls: time and force of call i; the result of call i *)
Definition time_of (calls : list (Qc * bool)) (i : nat) : Qc := fst (nth i calls (0%Qc, false)).
Definition forced (calls : list (Qc * bool)) (i : nat) : bool := snd (nth i calls (0%Qc, false)).
Definition printed (flags : list bool) (i : nat) : Prop := nth i flags false = true.
(** i is the last printed call before j *)
Definition last_before (flags : list bool) (i j : nat) : Prop := i < j /\ printed flags i /\ forall k, i < k < j -> ~ printed flags k.
Definition monotone (calls : list (Qc * bool)) : Prop := forall i j, i <= j < length calls -> (time_of calls i <= time_of calls j)%Qc.
Definition plain (l : list Qc) : list (Qc * bool) := map (fun t => (t, false)) l.
(** the elements with flag true *)
Fixpoint select {A} (flags : list bool) (l : list A) : list A :=
  match flags, l with b :: fr, a :: r => if b then a :: select fr r else select fr r | _, _ => [] end.
Definition accepted (l : list obs) : list obs := filter (fun o => pa_accepted (ob_a o)) l.
(** numbers attached to the attempts, counting from 1 *)
Fixpoint numbered (n : Z) (l : list obs) : list (Z * obs) := match l with [] => [] | o :: r => (n, o) :: numbered (n + 1)%Z r end.
Definition natQ (n : nat) : Qc := Q2Qc (inject_Z (Z.of_nat n)).
(** how many attempts satisfy p *)
Definition number (p : obs -> bool) (l : list obs) : Z := Z.of_nat (length (filter p l)).
Definition sum_h (l : list obs) : Qc := qsuml (map (fun o => pa_h (ob_a o) : Qc) l).

(** * Abbreviation: all of n consecutive numbers from b, or the first and the last L *)
Definition abbreviated (L b n : nat) : list nat := if n <=? 2 * L then seq b n else seq b L ++ seq (b + n - L) L.
(** every accepted attempt moved the time by the step size it reports, every rejected one left it; [elapsed t0 l] is the last time *)
Fixpoint advances (t0 : Qc) (l : list obs) : Prop :=
  match l with [] => True | o :: r => ob_t o = (if pa_accepted (ob_a o) then (t0 + pa_h (ob_a o))%Qc else t0) /\ advances (ob_t o) r end.
Definition last_time (t0 : Qc) (l : list obs) : Qc := last (map ob_t l) t0.
