(** GrfSpec.v - vocabulary for the statements about the Gragg solver in rounded arithmetic. *)
From Coq Require Import Reals.
Local Open Scope R_scope.

(** What the roundings and the error phi of the right-hand side add in one of the two half steps: B bounds the states, G the slopes, Lt their change per unit of time,
    w is the error of one rounding, A = 1 + |t0| + T. *)
Definition gragg_noise (B G Lt A T h w phi : R) : R := (40 * (1 + B + G + phi) * (1 + h) + 3 * T * Lt * A) * w + h * phi.
