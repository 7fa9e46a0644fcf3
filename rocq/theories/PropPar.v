(** PropPar.v - properties C14..C16 of parameter values and paths.  Vocabulary: ParSpec.v, LexSpec.v. *)
From Coq Require Import List Bool String ZArith.
Require Import Verif.Base Verif.LexSpec Verif.ParModel Verif.ParSpec Verif.ParFacts.
Import ListNotations.

(** ** C14 *)
Theorem C14_path_round_trip_iff : forall p, parsePath (formatPath p) = p <-> good_path p.
Proof. exact path_round_trip_iff. Qed.
Print Assumptions C14_path_round_trip_iff.

(** Text is cut silently at the first empty component; every text has such a component list. *)
Theorem C14_empty_component_cuts : forall p q, good_path p -> Forall dot_free q ->
  parsePath (formatPath (p ++ ""%string :: q)) = p.
Proof. exact path_cut. Qed.
Print Assumptions C14_empty_component_cuts.

Theorem C14_parse_any_text : forall s, exists p, p <> [] /\ Forall dot_free p /\ formatPath p = s /\
  parsePath s = before_empty p.
Proof.
  intro s. destruct (split_exists s) as (p & N & F & E). exists p. repeat split; auto.
  rewrite <- E. apply parse_format. exact F.
Qed.
Print Assumptions C14_parse_any_text.

(** ** C15 *)
Theorem C15_put_get : forall h root p v h', well_formed h root -> no_sharing h root ->
  assign_value h root p v = Ret h' -> read_value h' root p = Ret v.
Proof. exact put_get. Qed.
Print Assumptions C15_put_get.

Theorem C15_put_other : forall h root p v h' q, well_formed h root -> no_sharing h root ->
  assign_value h root p v = Ret h' -> ~ is_prefix p q -> read_value h' root q = read_value h root q.
Proof. exact put_other. Qed.
Print Assumptions C15_put_other.

(** A read succeeds exactly when the path exists; otherwise it is an exception, never undefined behaviour. *)
Theorem C15_read_exactly_existing : forall h root p, well_formed h root ->
  (forall v, read_value h root p = Ret v <->
     exists q a l ps, p = q ++ [a] /\ parameters h root q = Ret l /\ nth_error h l = Some ps /\ In (a, v) ps) /\
  read_value h root p <> UB.
Proof. intros h root p W. split; [intro v; exact (read_ret_iff h root p v W)|exact (read_noub h root p W)]. Qed.
Print Assumptions C15_read_exactly_existing.

Theorem C15_assign_exactly_existing : forall h root p v, well_formed h root ->
  ((exists h', assign_value h root p v = Ret h') <-> exists w, read_value h root p = Ret w) /\
  assign_value h root p v <> UB.
Proof. exact assign_defined. Qed.
Print Assumptions C15_assign_exactly_existing.

(** Histories of text assignments: the last assignment wins, untouched paths keep their values. *)
Theorem C15_assignment_history : forall root ws1 p t ws2 h h', well_formed h root -> no_sharing h root ->
  set_texts root (ws1 ++ (p, t) :: ws2) h = Ret h' -> (forall w, In w ws2 -> ~ is_prefix (fst w) p) ->
  read_value h' root p = Ret (mkV t None).
Proof. exact set_texts_last. Qed.
Print Assumptions C15_assignment_history.

Theorem C15_untouched_history : forall root ws h h' q, well_formed h root -> no_sharing h root ->
  set_texts root ws h = Ret h' -> (forall w, In w ws -> ~ is_prefix (fst w) q) ->
  read_value h' root q = read_value h root q.
Proof. intros root ws h h' q W N E. exact (proj2 (proj2 (set_texts_ok root ws h h' W N E)) q). Qed.
Print Assumptions C15_untouched_history.

(** ** C16 *)
Theorem C16_int_round_trip : forall z, (INT_MIN <= z <= INT_MAX)%Z -> to_int (Value_int z) = Ret z.
Proof. exact int_round_trip. Qed.
Print Assumptions C16_int_round_trip.

Theorem C16_unsigned_round_trip : forall z, (0 <= z < UINT_MOD)%Z -> to_unsigned (Value_unsigned z) = Ret z.
Proof. exact unsigned_round_trip. Qed.
Print Assumptions C16_unsigned_round_trip.

Theorem C16_bool_round_trip : forall b, to_bool (Value_bool b) = Ret b.
Proof. exact bool_round_trip. Qed.
Print Assumptions C16_bool_round_trip.

(** What is accepted: the text up to the first NUL must be a literal in range ... *)
Theorem C16_int_accepts_exactly : forall v,
  (forall z, to_int v = Ret z <-> denotes (c_str (v_text v)) z /\ (INT_MIN <= z <= INT_MAX)%Z) /\ to_int v <> UB.
Proof. intro v. split; [intro z; exact (to_int_ok v z)|exact (to_int_noub v)]. Qed.
Print Assumptions C16_int_accepts_exactly.

(** ... while unsigned wraps modulo 2^32 anything up to 64 bits, negative literals included. *)
Theorem C16_unsigned_wraps : forall v,
  (forall x, to_unsigned v = Ret x <->
     exists z, denotes (c_str (v_text v)) z /\ (- ULONG_MOD < z < ULONG_MOD)%Z /\ x = (z mod UINT_MOD)%Z) /\
  to_unsigned v <> UB.
Proof. intro v. split; [intro x; exact (to_unsigned_ok v x)|exact (to_unsigned_noub v)]. Qed.
Print Assumptions C16_unsigned_wraps.

Theorem C16_bool_accepts_exactly : forall v b,
  to_bool v = Ret b <-> In (v_text v) (if b then ["1"; "true"] else ["0"; "false"])%string.
Proof. exact to_bool_ok. Qed.
Print Assumptions C16_bool_accepts_exactly.
