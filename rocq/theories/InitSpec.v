(** InitSpec.v - vocabulary for C51. *)
From Coq Require Import List Arith Bool ZArith QArith Qabs String.
From Verif Require Import Base SMap ParModel UtilModel InitModel.
Import ListNotations.
Local Open Scope nat_scope.
Local Notation length := List.length (only parsing).

Section S.
Context {real : Type} (zero : real) (fmt : real -> string) (stod : string -> Outcome real).
(** a number printed and read again is the same *)
Definition survives (v : real) : Prop := to_double stod (Value_double fmt v) = Ret v.
(** the value a parameter set gives to a name, or the old one *)
Definition loaded (ps : pset) (name : string) (old new : real) : Prop :=
  match mfind TOstr name ps with None => new = old | Some v => to_double stod v = Ret new end.
(** the size requested by a parameter set, for a state of n0 components *)
Definition wanted (ps : pset) (n0 : nat) (n : nat) : Prop :=
  match mfind TOstr "size"%string ps with None => n = n0 | Some v => to_int v = Ret (Z.of_nat n) end.
End S.
(** two sets give the same to the names of a state with n components *)
Definition same_for (n : nat) (ps ps' : pset) : Prop :=
  mfind TOstr "size"%string ps = mfind TOstr "size"%string ps' /\ mfind TOstr "time"%string ps = mfind TOstr "time"%string ps' /\ forall i, i < n -> mfind TOstr (is_name i) ps = mfind TOstr (is_name i) ps'.
(** * decimal texts of 16 significant digits, binary numbers of 53 bits (any exponent) *)
Definition dec16 (d : Q) : Prop := exists m k : Z, (Z.abs m < 10 ^ 16)%Z /\ (d == inject_Z m * (10 # 1) ^ k)%Q.
Definition bin53 (x : Q) : Prop := exists m k : Z, (Z.abs m <= 2 ^ 53)%Z /\ (x == inject_Z m * (2 # 1) ^ k)%Q.
Definition nearest (P : Q -> Prop) (x d : Q) : Prop := P d /\ forall d', P d' -> (Qabs (d - x) <= Qabs (d' - x))%Q.
