(** ExDom.v - the theorems of PropDom.v at work. *)
From Coq Require Import List Arith Lia ZArith QArith Qcanon Bool.
From Verif Require Import Base BaseFacts LUModel LUSpec LUFacts5 RosModel RosSpec OrdFacts RosFacts4 LUFacts4 PropLU ExLU PropRos ExRos DomSpec DomFacts PropDom.
Import ListNotations.
Local Open Scope nat_scope.

(** exA, [[4,1,0],[1,3,1],[0,2,5]], is dominated by its diagonal by rows, though not by columns. *)
Example exA_dominant : row_dominant 3 (mval exA) /\ ~ column_dominant 3 (mval exA).
Proof.
  split.
  - intros [|[|[|r]]] Hr; try lia; vm_compute; reflexivity.
  - intros H. specialize (H 1 ltac:(lia)). vm_compute in H. discriminate H.
Qed.
Example C07_dominant_case : exists st st' x, setMatrix exA = Ret st /\ solve st [ExLU.q 5; ExLU.q 5; ExLU.q 7] = Ret (st', x) /\ solves 3 (mval exA) (vfun x) (vfun [ExLU.q 5; ExLU.q 5; ExLU.q 7]).
Proof.
  destruct exA_runs as (st & E & _). exists st.
  destruct (C07_classes_solve exA 3 st [ExLU.q 5; ExLU.q 5; ExLU.q 7] exA_distinct exA_acceptable E (or_introl (proj1 exA_dominant)) exA_covers eq_refl) as (st' & x & S & _ & Q & _).
  exists st', x. auto.
Qed.
(** [[1,5],[-5,1]] is not dominated by its diagonal, yet it is positive definite. *)
Definition exP : entries := [((0,0),ExLU.q 1);((0,1),ExLU.q 5);((1,0),ExLU.q (-5));((1,1),ExLU.q 1)].
Example exP_definite : positive_definite 2 (mval exP) /\ ~ row_dominant 2 (mval exP).
Proof.
  split.
  - intros x (i & Hi & X). assert (E : form 2 (mval exP) x = (x 0%nat * x 0%nat + x 1%nat * x 1%nat)%Qc).
    { unfold form. cbn [qsum]. change (mval exP 0 0) with 1%Qc. change (mval exP 1 1) with 1%Qc. change (mval exP 0 1) with (ExLU.q 5). change (mval exP 1 0) with (ExLU.q (-5)).
      assert (ExLU.q (-5) = - ExLU.q 5)%Qc as -> by (apply Qc_is_canon; reflexivity). ring. }
    rewrite E. pose proof (sq_nonneg (x 0)). pose proof (sq_nonneg (x 1)).
    assert (P : (0 < x i * x i)%Qc). { pose proof (sq_nonneg (x i)) as Q. destruct (Qcle_lt_or_eq _ _ Q) as [L|L]; [exact L|]. exfalso. symmetry in L. apply Qcmult_integral in L. tauto. }
    destruct i as [|[|]]; [| |lia]; qclra.
  - intros H. specialize (H 0 ltac:(lia)). vm_compute in H. discriminate H.
Qed.
Example C07_definite_case : leading_nonsingular 2 (mval exP).
Proof. apply C07_positive_definite, exP_definite. Qed.
(** Column dominance: [[4,3],[1,5]] transposed. *)
Definition exC : entries := [((0,0),ExLU.q 4);((0,1),ExLU.q 4);((1,0),ExLU.q (-3));((1,1),ExLU.q 5)].
Example C07_column_case : leading_nonsingular 2 (mval exC) /\ ~ row_dominant 2 (mval exC).
Proof.
  split.
  - apply C07_column_dominant. intros [|[|c]] Hc; try lia; vm_compute; reflexivity.
  - intros H. specialize (H 0 ltac:(lia)). vm_compute in H. discriminate H.
Qed.
(** Strictness is needed: with [[1,1],[1,1]] every diagonal element is as large as the others together. *)
Theorem C07_weak_dominance_refuted : ~ (forall n (A : nat -> nat -> Qc),
  (forall r, r < n -> (qsum n (fun c => if Nat.eqb c r then 0%Qc else Qcabs (A r c)) <= Qcabs (A r r))%Qc) -> (forall r, r < n -> A r r <> 0%Qc) -> leading_nonsingular n A).
Proof.
  intros H. specialize (H 2 (fun _ _ => 1%Qc)).
  assert (L : leading_nonsingular 2 (fun _ _ => 1%Qc)).
  { apply H; intros [|[|r]] Hr; try lia; vm_compute; discriminate. }
  specialize (L 2 (le_n 2) (fun i => if Nat.eqb i 0 then 1%Qc else (- (1))%Qc)).
  assert (Z : (fun i => if Nat.eqb i 0 then 1%Qc else (- (1))%Qc) 0 = 0%Qc) by (apply L; [intros r _; vm_compute; reflexivity|lia]). discriminate Z.
Qed.
(** The Rosenbrock history h3 of ExRos.v with hd = 1/4: the step is small enough. *)
Example C42_easy_case : exists (r' : ros) (x : list Qc), ros_linSolve [ExRos.q 1; ExRos.q 2; ExRos.q 3] (qc 1 4) (ros_hist h3) = Ret (r', x) /\ length x = 3 /\
  solves 3 (shifted (qc 1 4) (jac (ros_hist h3))) (vfun x) (vfun [ExRos.q 1; ExRos.q 2; ExRos.q 3]).
Proof.
  apply (C42_easy_solve h3 (qc 1 4) [ExRos.q 1; ExRos.q 2; ExRos.q 3] h3_proper eq_refl); [discriminate| | |vm_compute; reflexivity|vm_compute; lia].
  - left. change (ro_m (ros_hist h3)) with 2. intros [|[|i]] Hi; try lia; vm_compute; reflexivity.
  - intros r c H [r' [Hr [v Hv]]]. exfalso. revert r' Hr v Hv. revert r c H.
    apply (below2 (fun r c => forall r', r' <= r -> forall v, In ((r', c), v) (w_stencil 2 (J1_ (ros_hist h3)) (J2_ (ros_hist h3))) -> False)).
    intros r' Hr v Hv. vm_compute in Hv. assert (r' = 0) by lia. subst. repeat (destruct Hv as [Hv|Hv]; [discriminate Hv|]). exact Hv.
Qed.
