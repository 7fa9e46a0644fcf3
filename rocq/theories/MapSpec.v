(** MapSpec.v - vocabulary for the statements about vector mappings. *)
From Coq Require Import List Arith Bool.
From Verif Require Import Base MapModel.
Import ListNotations.

(** The indices below n that are not in ds, in increasing order. *)
Definition enabled (ds : list nat) (n : nat) : list nat := filter (fun i => negb (existsb (Nat.eqb i) ds)) (seq 0 n).
(** The components of x at the indices l. *)
Definition pick {A} (d : A) (x : list A) (l : list nat) : list A := map (fun i => nth i x d) l.
Definition same_set (a b : list nat) : Prop := forall i, In i a <-> In i b.
