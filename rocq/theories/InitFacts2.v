(** InitFacts2.v - proof of the theorem in PropInit2.v. *)
From Coq Require Import List Arith ZArith Lia String.
From Verif Require Import Base SMap ParModel UtilModel InitModel InitSpec InitFacts.
Import ListNotations.
Local Open Scope nat_scope.

Lemma new_object (real : Type) (zero : real) (fmt : real -> string) (stod : string -> Outcome real) :
  is_params fmt (is_new zero) = [("size"%string, mkV "0" None); ("time"%string, mkV (fmt zero) None)] /\
  forall s : istate, (Z.of_nat (List.length (is_x s)) <= 2147483647)%Z -> survives fmt stod (is_time s) -> (forall v, In v (is_x s) -> survives fmt stod v) ->
    is_set zero stod (is_params fmt s) (is_new zero) = (s, Ret tt).
Proof.
  split; [reflexivity|]. intros s B T V. apply round_trip; [exact B|simpl; lia|exact T|exact V].
Qed.
