(** PropSlide.v - properties of the sliding point (C68). *)
From Coq Require Import List Reals String.
From Verif Require Import Base SlideModel SlideSpec SlideFacts.
Import ListNotations.
Local Open Scope R_scope.

(** C68: the friction force is directed against the velocity, and zero at rest; *)
Theorem C68_opposes : forall p v, 0 <= sl_f0 p -> 0 < sl_v0 p -> exists k, 0 <= k /\ friction_at p v = (- k * fst v, - k * snd v).
Proof. exact opposes. Qed.
Print Assumptions C68_opposes.
(** it is at most f0, except for linear friction, and it has no jump: at most f0 / v0 times the speed; *)
Theorem C68_bounded : forall p v, 0 <= sl_f0 p -> 0 < sl_v0 p ->
  (sl_type p <> Linear -> norm2 (friction_at p v) <= sl_f0 p) /\ norm2 (friction_at p v) <= sl_f0 p / sl_v0 p * norm2 v.
Proof. exact bounded. Qed.
Print Assumptions C68_bounded.
(** it grows with the speed; *)
Theorem C68_grows : forall p v w, 0 <= sl_f0 p -> 0 < sl_v0 p -> norm2 v <= norm2 w -> norm2 (friction_at p v) <= norm2 (friction_at p w).
Proof. exact grows. Qed.
Print Assumptions C68_grows.
(** tabular friction reaches f0 at the speed v0. *)
Theorem C68_saturates : forall p v, 0 <= sl_f0 p -> 0 < sl_v0 p -> sl_type p = Tabular -> sl_v0 p <= norm2 v -> norm2 (friction_at p v) = sl_f0 p.
Proof. exact saturates. Qed.
Print Assumptions C68_saturates.
(** C68: friction never drives two motions apart: the difference of the forces works against the difference of the velocities; *)
Theorem C68_monotone : forall p, 0 <= sl_f0 p -> 0 < sl_v0 p -> forall v w, dot2 (minus2 (friction_at p v) (friction_at p w)) (minus2 v w) <= 0.
Proof. exact force_monotone. Qed.
Print Assumptions C68_monotone.
(** so for the equations of motion, whatever the applied forces, the distance of the velocities of two motions does not grow. *)
Theorem C68_contracts : forall p t x y, 0 <= sl_f0 p -> 0 < sl_v0 p -> 0 < sl_mass p -> List.length x = 4%nat -> List.length y = 4%nat ->
  exists dx dy, slide_rhs p t x = Ret dx /\ slide_rhs p t y = Ret dy /\
    dot2 (minus2 (nth 2 dx 0, nth 3 dx 0) (nth 2 dy 0, nth 3 dy 0)) (minus2 (nth 2 x 0, nth 3 x 0) (nth 2 y 0, nth 3 y 0)) <= 0.
Proof. exact slide_contract. Qed.
Print Assumptions C68_contracts.
(** C68: the equations of motion: the derivatives of the coordinates are the velocities, mass times acceleration is the applied force plus friction. *)
Theorem C68_motion : forall p t x, List.length x = 4%nat -> slide_rhs p t x = Ret [nth 2 x 0; nth 3 x 0;
   (sl_F1 p + fst (friction_at p (nth 2 x 0, nth 3 x 0))) / sl_mass p; (sl_F2 p * sin (sl_omega p * t) + snd (friction_at p (nth 2 x 0, nth 3 x 0))) / sl_mass p].
Proof. exact slide_ok. Qed.
Print Assumptions C68_motion.
(** C68: the text of every friction type is accepted and gives the type back; any other text throws. *)
Theorem C68_text : forall t, exists s, from_enum t = Ret s /\ to_enum s = Ret t.
Proof. exact enum_round. Qed.
Print Assumptions C68_text.
Theorem C68_text_back : forall s, match to_enum s with Ret t => from_enum t = Ret s | Throw => s <> "atan"%string /\ s <> "tabular"%string /\ s <> "linear"%string | UB => False end.
Proof. exact enum_back. Qed.
Print Assumptions C68_text_back.
