(** SlideModel.v - the sliding point: /repo/include/ode_num_int/ode/test_models/SlidingPoint.h, over the real numbers.
    Simplifications: the observers are left out; the parameter tables are in ParModel.v; exact real arithmetic, so sqrt(v1*v1+v2*v2) neither overflows nor underflows. *)
From Coq Require Import List Reals String.
From Verif Require Import Base.
Import ListNotations.
Local Open Scope R_scope.

(** SlidingPoint.h 24 *)
Inductive friction_type : Type := Atan | Tabular | Linear.
(** 109-115 *)
Record slide : Type := mkSlide { sl_type : friction_type; sl_mass : R; sl_f0 : R; sl_v0 : R; sl_F1 : R; sl_F2 : R; sl_omega : R }.
(** the switch of frictionForce, 128-141; the default case 138-140 cannot be reached with an enumerator *)
Definition friction_law (p : slide) (v : R) : R :=
  match sl_type p with
  | Atan => 2 / PI * sl_f0 p * atan (v / sl_v0 p)
  | Tabular => if Rlt_dec v (sl_v0 p) then sl_f0 p * v / sl_v0 p else sl_f0 p
  | Linear => sl_f0 p * v / sl_v0 p
  end.
(** frictionForce 117-143 *)
Definition friction (p : slide) (v1 v2 : R) : R * R :=
  let v := sqrt (v1 * v1 + v2 * v2) in
  let e := if Rlt_dec 0 v then (v1 / v, v2 / v) else (0, 0) in
  let f := friction_law p v in
  (- f * fst e, - f * snd e).
(** rhs 44-60 *)
Definition slide_rhs (p : slide) (time : R) (x : list R) : Outcome (list R) :=
  v1 <- rdat x 2 ;; v2 <- rdat x 3 ;;
  let r := friction p v1 v2 in
  let F1 := sl_F1 p + fst r in
  let F2 := sl_F2 p * sin (sl_omega p * time) + snd r in
  Ret [v1; v2; F1 / sl_mass p; F2 / sl_mass p].

(** enumText 146-153 *)
Definition enum_text : list (friction_type * string) := [(Atan, "atan"%string); (Tabular, "tabular"%string); (Linear, "linear"%string)].
Definition ft_eqb (a b : friction_type) : bool := match a, b with Atan, Atan | Tabular, Tabular | Linear, Linear => true | _, _ => false end.
(** fromEnum 155-161 *)
Definition from_enum (ft : friction_type) : Outcome string :=
  match find (fun p => ft_eqb ft (fst p)) enum_text with Some p => Ret (snd p) | None => Throw end.
(** toEnum 163-169 *)
Definition to_enum (s : string) : Outcome friction_type :=
  match find (fun p => String.eqb s (snd p)) enum_text with Some p => Ret (fst p) | None => Throw end.
