(** SlideSpec.v - vocabulary for the statements about the sliding point. *)
From Coq Require Import Reals.
From Verif Require Import SlideModel.
Local Open Scope R_scope.
(** the length of a vector in the plane *)
Definition norm2 (a : R * R) : R := sqrt (fst a * fst a + snd a * snd a).
Definition dot2 (a b : R * R) : R := fst a * fst b + snd a * snd b.
Definition minus2 (a b : R * R) : R * R := (fst a - fst b, snd a - snd b).
Definition friction_at (p : slide) (v : R * R) : R * R := friction p (fst v) (snd v).
