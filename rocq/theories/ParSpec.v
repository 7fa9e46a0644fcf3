(** ParSpec.v - vocabulary for the parameter properties. *)
From Coq Require Import List Bool String Ascii ZArith.
Require Import Verif.Base Verif.LexSpec Verif.ParModel.
Import ListNotations.

Definition dot_free (s : string) : Prop := ~ In "."%char (chars s).
(** components that survive the text form *)
Definition good_path (p : path) : Prop := Forall (fun s => s <> ""%string /\ dot_free s) p.
(** longest prefix without an empty component *)
Fixpoint before_empty (p : path) : path :=
  match p with [] => [] | a :: t => if String.eqb a "" then [] else a :: before_empty t end.

(** different paths lead to different nested sets *)
Definition no_sharing (h : heap) (root : loc) : Prop :=
  forall p q l, parameters h root p = Ret l -> parameters h root q = Ret l -> p = q.
(** every nested set reachable from the root exists, and every set is a proper map *)
Definition well_formed (h : heap) (root : loc) : Prop :=
  root < List.length h /\
  forall l ps k v, nth_error h l = Some ps ->
    SMap.msorted SMap.TOstr ps /\ (In (k, v) ps -> forall l', v_nested v = Some l' -> l' < List.length h).
Definition is_prefix (p q : path) : Prop := exists r, q = p ++ r.

(** value of an unsigned decimal numeral *)
Definition numeral (ds : string) : Z :=
  fold_left (fun a c => (10 * a + (Z.of_N (N_of_ascii c) - 48))%Z) (chars ds) 0%Z.
(** [s] is an optionally signed decimal literal denoting [z] *)
Definition denotes (s : string) (z : Z) : Prop :=
  exists sg ds, s = (sg ++ ds)%string /\ is_sign sg /\ is_digits ds /\ ds <> ""%string /\
    z = if String.eqb sg "-" then Z.opp (numeral ds) else numeral ds.
