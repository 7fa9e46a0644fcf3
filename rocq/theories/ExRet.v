(** ExRet.v - concrete cases for PropRet.v. *)
From Coq Require Import List Arith ZArith QArith Qcanon.
From Verif Require Import Base SpModel MapModel JacModel NewtModel NewtSpec LUModel BroModel XrkModel ExNewt PropRet.
Import ListNotations.
Local Open Scope nat_scope.

(** One iteration from 3 for the square root of 2: not yet there.  Broyden's direction: set back to 3 and tried again; the plain direction: not. *)
Definition jp2 := default_jp (qf 1 2) None g2.
Definition fresh_b : perf QcNum (S:=bst (smat QcNum)) := mkPerf (N:=QcNum) [] [] false 1%Qc est0 (b_new default_new).
Definition showG {S} (o : Outcome (perf QcNum (S:=S) * list (event QcNum) * nstatus)) : option (list (list Q) * list nat * nstatus) :=
  match o with Ret (_, l, st) => Some (map tq (guesses l), iter_numbers l, st) | _ => None end.
Example C27_second_attempt_case :
  showG (nrun (plain_comps (bro_dd jp2) lit 5 g2) 1 (pf_guess (bro_dd jp2) (ql [3]%Z) true fresh_b)) = Some ([zq [3]%Z], [0; 0], NLimit) /\
  showG (nrun (plain_comps dd2 lit 5 g2) 1 (pf_guess dd2 (ql [3]%Z) true fresh)) = Some ([], [0], NLimit).
Proof. split; vm_compute; reflexivity. Qed.
Example C79_low_case : x_low_order 2 4 true = 6%Z /\ x_low_order 1 4 false = 3%Z. Proof. split; reflexivity. Qed.
