(** ExInit2.v - a concrete case for C51_new_object. *)
From Coq Require Import List Arith ZArith String Lia.
From Verif Require Import Base SMap ParModel UtilModel InitModel InitSpec ExInit PropInit2.
Import ListNotations.

Example C51_new_object_case : is_set 0%Z zread (is_params zfmt st3) (is_new 0%Z) = (st3, Ret tt) /\ is_x st3 = [7; -8; 1234567]%Z.
Proof.
  split; [|reflexivity]. apply (proj2 (C51_new_object Z 0%Z zfmt zread)); [vm_compute; discriminate| |].
  - apply C51_survives_example. left. reflexivity.
  - intros v H. apply C51_survives_example. right. exact H.
Qed.
