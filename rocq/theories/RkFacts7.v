(** RkFacts7.v - the DOPRI 8(7) table satisfies the order conditions up to the rounding of its published coefficients. *)
From Coq Require Import List Arith Lia Bool ZArith QArith Qcanon.
From Verif Require Import Base BaseFacts VecModel VOps RkModel RkSpec RkFacts4.
Local Open Scope nat_scope.
Lemma ord_dopri78_hi : forall t, order t <= 8 -> (Qcabs (weight tab_dopri78 13 0 t - 1 / qn (density t)) <= qc 1 100000000000000000)%Qc.
Proof. apply ball_sound. vm_compute. reflexivity. Qed.
Lemma ord_dopri78_lo : forall t, order t <= 7 -> (Qcabs (weight tab_dopri78 13 1 t - 1 / qn (density t)) <= qc 1 100000000000000000)%Qc.
Proof. apply ball_sound. vm_compute. reflexivity. Qed.
