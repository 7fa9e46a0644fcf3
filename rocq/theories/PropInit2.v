(** PropInit2.v - C51: a newly created specified initial state. *)
From Coq Require Import List Arith ZArith String.
From Verif Require Import Base SMap ParModel UtilModel InitModel InitSpec InitFacts InitFacts2.
Import ListNotations.
Local Open Scope nat_scope.

(** C51.  A new object has no variables and time zero, and the parameters of any state whose numbers survive printing and reading, set into a new object, restore that state. *)
Theorem C51_new_object : forall (real : Type) (zero : real) (fmt : real -> string) (stod : string -> Outcome real),
  is_params fmt (is_new zero) = [("size"%string, mkV "0" None); ("time"%string, mkV (fmt zero) None)] /\
  forall s : istate, (Z.of_nat (List.length (is_x s)) <= 2147483647)%Z -> survives fmt stod (is_time s) -> (forall v, In v (is_x s) -> survives fmt stod v) ->
    is_set zero stod (is_params fmt s) (is_new zero) = (s, Ret tt).
Proof. exact @new_object. Qed.
Print Assumptions C51_new_object.
