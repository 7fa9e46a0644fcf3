(** ExMore.v - examples beside the theorems of PropMore.v. *)
From Coq Require Import List Arith Bool ZArith QArith Qcanon String Ascii.
From Verif Require Import Base SMap SpModel SpSpec MapModel MapSpec ParModel ParSpec UtilModel RkModel OutModel OutSpec.
Import ListNotations.
Local Open Scope nat_scope.

Definition a0 : smat QcNum := mkS (N:=QcNum) false (5, 5) [((0, 3), Q2Qc 1); ((2, 1), Q2Qc 7)].
Example C02_size_example : sizeFromData a0 = (3, 4).
Proof. reflexivity. Qed.
Example C05_scaled_identity_example : exists a, scaledIdentity (N:=QcNum) 3 (Q2Qc 2) = Ret a /\ sdat a = [((0, 0), Q2Qc 2); ((1, 1), Q2Qc 2); ((2, 2), Q2Qc 2)].
Proof. eexists. split; [reflexivity|]. vm_compute. reflexivity. Qed.
(** a matrix constructed from a transposed block *)
Example C05_construct_example : mems_ok [a0] /\ exists m, sconstruct 10 [a0] false (STr (SBk (SW 0) (0, 1) (3, 3))) = Some (m, Ret tt) /\ sdat (obj m 1) = [((0, 2), Q2Qc 7); ((2, 0), Q2Qc 1)].
Proof.
  split.
  - intros [|[|id]]; cbn; [|exact I|exact I]. split; [|split; [intros ? ? []|exact I]]. intros k x [E|[]]. injection E as <- _. left. cbn. auto with arith.
  - eexists. split; [reflexivity|]. vm_compute. reflexivity.
Qed.
(** two of three inputs disabled, a vector of one component *)
Example C18_too_short_example : exists o', setInputNarrowing (N:=QcNum) (mkNarrow (N:=QcNum) (mkMap (N:=QcNum) 3 3 (fun x => Ret x)) [] [] []) [0; 2] [Q2Qc 1; Q2Qc 2; Q2Qc 3] = Ret o' /\ List.length (disIn o') = 2 /\ narrowInput o' [Q2Qc 5] = Throw.
Proof. eexists. split; [reflexivity|]. split; reflexivity. Qed.
Example C20_inverse_example : inv_map (N:=QcNum) [Q2Qc 2; Q2Qc 4] [Q2Qc 6; Q2Qc 1] = Ret [Q2Qc 3; Q2Qc (1#4)].
Proof. cbn. apply f_equal. apply f_equal2; [|apply f_equal2; [|reflexivity]]; apply Qc_is_canon; reflexivity. Qed.
(** a step truncated by the zero function number 3, falling *)
Example C48_line_example : gl_cause (line_of 7 (mkObs (Q2Qc 1) [] (mkPost (N:=QcNum) (Q2Qc (1#8)) true false true (Q2Qc 0) (Some 3) (-1)))) = Some (3, "-"%char).
Proof. reflexivity. Qed.
Example C49_names_example : sol_header 2 [0; 2; 4] = ["x0"; "v0"; "z0"]%string.
Proof. reflexivity. Qed.
Example C50_format_example : FormatInt 4294967295 = "-1"%string /\ FormatInt 12 = "12"%string.
Proof. split; reflexivity. Qed.
Example C53_sgn_example : Sgn 0 = 1%Z /\ Sgn (- (1 # 3)) = (-1)%Z.
Proof. split; reflexivity. Qed.
