(** ExMore2.v - examples beside PropMore2.v. *)
From Coq Require Import List Arith Bool ZArith QArith Qcanon.
From Verif Require Import Base SMap SpModel LUModel VecModel VOps RkModel RkSpec StepSpec ExtModel ExtSpec.
Import ListNotations.
Local Open Scope nat_scope.
(** a factorized object of dimension 1 and a matrix of dimension 2 with an element missing on the diagonal *)
Example C06_failed_call_example : let st := mkLu (mkLayout [0] [0] [1] [0; 0] [0; 1]) [] [Q2Qc 3] true in let e := [((0, 0), Q2Qc 1); ((0, 1), Q2Qc 2)] in let e2 := [((0, 1), Q2Qc 2); ((1, 0), Q2Qc 5)] in
  setMatrix e = Throw /\ setMatrix_after_throw st e = st /\ setMatrix e2 = Throw /\ uu (setMatrix_after_throw st e2) = [Q2Qc 3] /\ ufact (setMatrix_after_throw st e2) = true.
Proof. repeat split. Qed.
(** a run of two steps of x' = x, then setInitialState, then one step *)
Definition grow (w : unit) (t : Qc) (x : list Qc) : Outcome (list Qc) := Ret x.
Definition before : option (gst QcNum unit) := g_steps (N:=QcNum) no_events grow (qn 2) 2 (g_size (N:=QcNum) 1%Qc (g_set (N:=QcNum) 0%Qc [1%Qc] (mkG (N:=QcNum) (W:=unit) 0%Qc [] [] [] false 0%Qc tt))).
Example C39_set_only_example : good_rhs (N:=QcNum) 1 (grow tt) /\
  match before with
  | Some s => g_run s = true /\ option_map (fun r : gst QcNum unit => (this (g_t r : Qc), map this (g_u r : list Qc))) (g_steps (N:=QcNum) no_events grow (qn 2) 1 (g_set (N:=QcNum) (qn 5) [qn 2] s)) = Some ((6 # 1)%Q, [(5 # 1)%Q])
  | None => False
  end.
Proof. split; [intros t x L; exists x; auto|]. vm_compute. split; reflexivity. Qed.
