(** PropInit.v - C51: the specified initial state as parameters. *)
From Coq Require Import List Arith Bool ZArith QArith Qabs String.
From Verif Require Import Base SMap ParModel UtilModel InitModel InitSpec InitFacts.
Import ListNotations.
Local Open Scope nat_scope.

(** C51.  The parameters of a state, set into any state that is not longer, restore it exactly when its numbers survive printing and reading. *)
Theorem C51_round_trip : forall (real : Type) (zero : real) (fmt : real -> string) (stod : string -> Outcome real) (s s0 : istate), (Z.of_nat (List.length (is_x s)) <= 2147483647)%Z -> List.length (is_x s0) <= List.length (is_x s) ->
  survives fmt stod (is_time s) -> (forall v, In v (is_x s) -> survives fmt stod v) -> is_set zero stod (is_params fmt s) s0 = (s, Ret tt).
Proof. exact @round_trip. Qed.
Print Assumptions C51_round_trip.
Theorem C51_round_trip_converse : forall (real : Type) (zero : real) (fmt : real -> string) (stod : string -> Outcome real) (s s0 : istate), (Z.of_nat (List.length (is_x s)) <= 2147483647)%Z ->
  is_set zero stod (is_params fmt s) s0 = (s, Ret tt) -> List.length (is_x s0) <= List.length (is_x s) /\ survives fmt stod (is_time s) /\ forall v, In v (is_x s) -> survives fmt stod v.
Proof. exact @round_trip_conv. Qed.
Print Assumptions C51_round_trip_converse.
(** C51.  Setting parameters succeeds exactly when the wanted size is not smaller than the present one and every given value converts; then the given components have the given values, the others the old ones, and new components that are not given are zero. *)
Theorem C51_set_parameters : forall (real : Type) (zero : real) (stod : string -> Outcome real) (ps : pset) (s s' : istate),
  is_set zero stod ps s = (s', Ret tt) <->
  exists n, List.length (is_x s) <= n /\ wanted ps (List.length (is_x s)) n /\ List.length (is_x s') = n /\ loaded stod ps "time"%string (is_time s) (is_time s') /\
  forall i, i < n -> loaded stod ps (is_name i) (nth i (is_x s) zero) (nth i (is_x s') zero).
Proof. exact @set_ok. Qed.
Print Assumptions C51_set_parameters.
(** C51.  Other names in the set have no effect. *)
Theorem C51_other_names : forall (real : Type) (zero : real) (stod : string -> Outcome real) (ps ps' : pset) (s : istate) (n : nat), same_for n ps ps' -> wanted ps (List.length (is_x s)) n -> is_set zero stod ps s = is_set zero stod ps' s.
Proof. exact @set_same. Qed.
Print Assumptions C51_other_names.
(** C51.  A negative size throws and changes nothing; a smaller size is undefined behaviour. *)
Theorem C51_size : forall (real : Type) (zero : real) (stod : string -> Outcome real) (ps : pset) (s : istate) (v : pvalue) (z : Z), mfind TOstr "size"%string ps = Some v -> to_int v = Ret z ->
  ((z < 0)%Z -> is_set zero stod ps s = (s, Throw)) /\ ((0 <= z < Z.of_nat (List.length (is_x s)))%Z -> is_set zero stod ps s = (s, UB)).
Proof. exact @set_sizes. Qed.
Print Assumptions C51_size.
(** C51.  Numbers: printed to 16 significant digits and read back to the nearest 53-bit number, a number is restored when some 16-digit decimal (for instance the text it was read from) is closer than half the distance to the next numbers. *)
Theorem C51_numbers : forall x u d0 d y : Q, bin53 x -> (forall z, bin53 z -> ~ (z == x)%Q -> (u <= Qabs (z - x))%Q) -> dec16 d0 -> (Qabs (d0 - x) * 2 < u)%Q ->
  nearest dec16 x d -> nearest bin53 d y -> (y == x)%Q.
Proof. exact survive16. Qed.
Print Assumptions C51_numbers.
