(** More3Spec.v - vocabulary for reading and writing values in a tree of parameters. *)
From Coq Require Import List String.
Require Import Verif.Base Verif.SMap Verif.CfgModel.
Import ListNotations.

(** The value v stands at the path in the tree r: the names lead through nested sets. *)
Inductive holds : params -> list string -> pval -> Prop :=
| holds_here r a v : In (a, v) r -> holds r [a] v
| holds_below r a s r' p v : In (a, PV s (Some r')) r -> holds r' p v -> holds r (a :: p) v.
(** Every set in the tree is a map: names in increasing order, none twice. *)
Inductive proper : params -> Prop :=
| proper_set r : msorted TOstr r -> (forall a s r', In (a, PV s (Some r')) r -> proper r') -> proper r.
(** p is at or below q *)
Definition below (q p : list string) : Prop := exists e, p = q ++ e.
