(** ExLU.v - concrete cases for PropLU.v (hypotheses are met by non-trivial matrices) and refutations of the
    unconditional claims. *)
From Coq Require Import List Arith Lia ZArith QArith Qcanon Bool.
Require Import Verif.Base Verif.BaseFacts Verif.LUModel Verif.LUSpec Verif.LUFacts5 Verif.PropLU.
Import ListNotations.

Definition q (z : Z) : Qc := qc z 1.
(** tridiagonal  [[4,1,0],[1,3,1],[0,2,5]] *)
Definition exA : entries :=
  [((0,0),q 4);((0,1),q 1);((1,0),q 1);((1,1),q 3);((1,2),q 1);((2,1),q 2);((2,2),q 5)]%nat.
Definition exB : entries :=
  [((0,0),q 2);((0,1),q 3);((1,0),q 1);((1,1),q 1);((1,2),q 7);((2,1),q (-2));((2,2),q 1)]%nat.

Lemma ex_stored_iff (e : entries) r c : stored e r c <-> In (r, c) (map fst e).
Proof.
  unfold stored. rewrite in_map_iff. split.
  - intros (v & H). exists ((r,c),v). auto.
  - intros (((r',c'),v) & E & H). simpl in E. inversion E; subst. eauto.
Qed.
Ltac stored_cases H := apply ex_stored_iff in H; simpl in H;
  repeat (destruct H as [H|H]; [inversion H; subst; clear H|]); try contradiction.
Ltac is_stored := apply ex_stored_iff; simpl; tauto.
Ltac ex012 := first [ exists 0%nat; split; [lia|is_stored] | exists 1%nat; split; [lia|is_stored] | exists 2%nat; split; [lia|is_stored] ].

Example exA_distinct : distinct_keys exA.
Proof. unfold distinct_keys, exA. simpl. repeat constructor; simpl; intuition discriminate. Qed.
Example exB_distinct : distinct_keys exB.
Proof. unfold distinct_keys, exB. simpl. repeat constructor; simpl; intuition discriminate. Qed.
Example exA_acceptable : acceptable exA 3.
Proof.
  split.
  - intros r c H. stored_cases H; lia.
  - intros i Hi. split; exists i; (split; [|lia]); (destruct i as [|[|[|]]]; [is_stored|is_stored|is_stored|lia]).
Qed.
Example exA_nonsingular : leading_nonsingular 3 (mval exA).
Proof.
  apply (nonsing_check_ok 3 _ [[q 1;q 0;q 0];[qc 1 4;q 1;q 0];[q 0;qc 8 11;q 1]]
     [[q 4;q 1;q 0];[q 0;qc 11 4;q 1];[q 0;q 0;qc 47 11]]).
  vm_compute. reflexivity.
Qed.
Example exB_nonsingular : leading_nonsingular 3 (mval exB).
Proof.
  apply (nonsing_check_ok 3 _ [[q 1;q 0;q 0];[qc 1 2;q 1;q 0];[q 0;q 4;q 1]]
     [[q 2;q 3;q 0];[q 0;qc (-1) 2;q 7];[q 0;q 0;q (-27)]]).
  vm_compute. reflexivity.
Qed.
Example exA_covers : stencil_covers exA 3.
Proof.
  intros r c Hrc (r' & Hr' & H). stored_cases H; try lia;
   destruct r as [|[|[|]]]; try lia; ex012.
Qed.
Example exA_fill : fill_covered exA (mval exA) 3.
Proof. apply LUFacts4.stencil_covers_fill, exA_covers. Qed.

Example exA_runs : exists st, setMatrix exA = Ret st /\
  exists st' x, solve st [q 5; q 5; q 7] = Ret (st', x) /\ map this x = [1; 1; 1]%Q.
Proof. eexists. split; [vm_compute; reflexivity|]. eexists. eexists. split; [vm_compute; reflexivity|]. vm_compute. reflexivity. Qed.
Example exAB_skyline : forall r c, stored exB r c -> in_skyline exA r c.
Proof.
  intros r c H. stored_cases H;
  first [ left; split; [lia|]; ex012
        | right; split; [lia|]; ex012 ].
Qed.
Example exB_runs : exists st, setMatrix exA = Ret st /\
  exists st' xs, refill_run st [(exB, [q 5; q 9; q (-1)]); (exA, [q 5; q 5; q 7])] = Ret (st', xs) /\
     map (map this) xs = [[1; 1; 1]; [1; 1; 1]]%Q.
Proof. eexists. split; [vm_compute; reflexivity|]. eexists. eexists. split; [vm_compute; reflexivity|]. vm_compute. reflexivity. Qed.
Example exA_hart_visible : hart_visible exA 3 [q 1; q 2; q (-1)].
Proof.
  intros i Hi. exists i. repeat split; auto.
  - destruct i as [|[|[|]]]; try lia; vm_compute; discriminate.
  - exists i. split; auto. destruct i as [|[|[|]]]; try lia; is_stored.
  - exists i. split; auto. destruct i as [|[|[|]]]; try lia; is_stored.
Qed.
Example exA_hart_hyp : (forall i, (i < 3)%nat -> exists c, (i <= c)%nat /\ stored exA i c).
Proof. intros i Hi. exists i. split; auto. destruct i as [|[|[|]]]; try lia; is_stored. Qed.
(** the update applied to A with s=(1,2,-1), y=(1,0,3), read back element by element *)
Example exA_hart_runs : exists st st', setMatrix exA = Ret st /\
  hart_run st [([q 1; q 2; q (-1)], [q 1; q 0; q 3])] = Ret st' /\
  exists a b, elementAt st' 0 0 = Ret a /\ elementAt st' 0 1 = Ret b /\ (a * q 1 + b * q 2 = q 1)%Qc.
Proof.
  eexists. eexists. split; [vm_compute; reflexivity|]. split; [vm_compute; reflexivity|].
  eexists. eexists. split; [vm_compute; reflexivity|]. split; [vm_compute; reflexivity|]. qcompute.
Qed.
Example exA_proportional_runs : match (st <- setMatrix exA ;; st' <- secantUpdateProportional st [q 1; q 2; q (-1)] [q 1; q 0; q 3] ;;
    a <- elementAt st' 0 0 ;; b <- elementAt st' 2 2 ;; Ret (a, b)) with Ret (a, b) => Some (this a, this b) | _ => None end = Some (14 # 3, -10)%Q.
Proof. vm_compute. reflexivity. Qed.

(** ** Refutations *)
(** [[1,0,1],[1,1,0],[0,0,1]] with the explicit zeros not stored; row 1 gets fill-in in column 2. *)
Definition exBad : entries := [((0,0),q 1);((0,2),q 1);((1,0),q 1);((1,1),q 1);((2,2),q 1)]%nat.

(** C07 without the fill condition is false: regular matrix, all leading minors nonzero, wrong solution. *)
Theorem C07_solve_unconditional_refuted :
  ~ (forall e n st b st' x, distinct_keys e -> acceptable e n -> leading_nonsingular n (mval e) ->
       setMatrix e = Ret st -> length b = n -> solve st b = Ret (st', x) -> solves n (mval e) (vfun x) (vfun b)).
Proof.
  intro H.
  assert (ND : distinct_keys exBad) by (unfold distinct_keys, exBad; simpl; repeat constructor; simpl; intuition discriminate).
  assert (HA : acceptable exBad 3).
  { split.
    - intros r c Hs. stored_cases Hs; lia.
    - intros i Hi. split; exists i; (split; [|lia]); (destruct i as [|[|[|]]]; [is_stored|is_stored|is_stored|lia]). }
  assert (NS : leading_nonsingular 3 (mval exBad)).
  { apply (nonsing_check_ok 3 _ [[q 1;q 0;q 0];[q 1;q 1;q 0];[q 0;q 0;q 1]] [[q 1;q 0;q 1];[q 0;q 1;q (-1)];[q 0;q 0;q 1]]).
    vm_compute. reflexivity. }
  destruct (setMatrix exBad) as [st| |] eqn:ES; [|vm_compute in ES; discriminate|vm_compute in ES; discriminate].
  destruct (solve st [q 1; q 0; q 1]) as [[st' x]| |] eqn:EV;
    [|vm_compute in ES; injection ES as <-; vm_compute in EV; discriminate|vm_compute in ES; injection ES as <-; vm_compute in EV; discriminate].
  specialize (H exBad 3%nat st [q 1; q 0; q 1] st' x ND HA NS ES eq_refl EV 1%nat ltac:(lia)).
  vm_compute in ES. injection ES as <-. vm_compute in EV. injection EV as _ <-. qdiscr H.
Qed.
Print Assumptions C07_solve_unconditional_refuted.

(** C08: a refill inside the profile may still make solve wrong although a fresh factorizer solves correctly:
    the row extents of the first matrix are kept. *)
Definition exStA : entries := [((0,0),q 1);((0,2),q 1);((1,1),q 1);((2,2),q 1)]%nat.
Definition exStB : entries := [((0,0),q 1);((0,2),q 1);((1,1),q 1);((1,2),q 1);((2,2),q 1)]%nat.
Theorem C08_refill_solve_like_fresh_refuted :
  exists a b st st1 sb b', setMatrix a = Ret st /\ (forall r c, stored b r c -> in_skyline a r c) /\
    setMatrixFast st b = Ret st1 /\ setMatrix b = Ret sb /\
    exists st2 x sb2 y, solve st1 b' = Ret (st2, x) /\ solve sb b' = Ret (sb2, y) /\ x <> y /\
      solves 3 (mval b) (vfun y) (vfun b').
Proof.
  exists exStA, exStB. eexists. eexists. eexists. exists [q 2; q 2; q 1].
  split; [vm_compute; reflexivity|]. split.
  { intros r c H. stored_cases H;
    first [ left; split; [lia|]; ex012
          | right; split; [lia|]; ex012 ]. }
  split; [vm_compute; reflexivity|]. split; [vm_compute; reflexivity|].
  eexists. eexists. eexists. eexists.
  split; [vm_compute; reflexivity|]. split; [vm_compute; reflexivity|]. split.
  - intro E. apply (f_equal (map this)) in E. vm_compute in E. discriminate.
  - intros r Hr. destruct r as [|[|[|]]]; try lia; qcompute.
Qed.
Print Assumptions C08_refill_solve_like_fresh_refuted.

(** C08: a refill with a larger matrix is undefined behaviour, not a fallback. *)
Theorem C08_refill_larger_refuted :
  exists a b st, setMatrix a = Ret st /\ (exists sb, setMatrix b = Ret sb) /\ setMatrixFast st b = UB.
Proof.
  exists [((0,0),q 1)]%nat, [((0,0),q 1);((1,1),q 1)]%nat. eexists.
  split; [vm_compute; reflexivity|]. split; [eexists; vm_compute; reflexivity|vm_compute; reflexivity].
Qed.
Print Assumptions C08_refill_larger_refuted.

(** C06: an exception thrown by setMatrix leaves the object broken (dimension changed, arrays not). *)
Theorem C06_exception_safety_refuted :
  exists a b st, setMatrix a = Ret st /\ setMatrix b = Throw /\
    (exists v, elementAt st 0 0 = Ret v /\ v = q 1) /\ elementAt (setMatrix_after_throw st b) 1 1 = UB /\
    solve (setMatrix_after_throw st b) [q 1; q 1] = UB.
Proof.
  exists [((0,0),q 1)]%nat, [((0,1),q 1);((1,1),q 1)]%nat. eexists.
  split; [vm_compute; reflexivity|]. split; [vm_compute; reflexivity|].
  split; [eexists; split; [vm_compute; reflexivity|qcompute]|]. split; vm_compute; reflexivity.
Qed.

(** C09: the proportional update does not satisfy the secant equation (1x1: A=2, s=1, y=3 gives 5, not 3). *)
Theorem C09_proportional_secant_refuted :
  exists e st st' s y, setMatrix e = Ret st /\ hart_visible e 1 [s] /\
    secantUpdateProportional st [s] [y] = Ret st' /\
    exists a, elementAt st' 0 0 = Ret a /\ (a * s)%Qc <> y /\ (a * s = mval e 0 0 * s + y)%Qc.
Proof.
  exists [((0,0),q 2)]%nat. eexists. eexists. exists (q 1), (q 3).
  split; [vm_compute; reflexivity|]. split.
  { intros i Hi. exists 0%nat. assert (i = 0)%nat by lia. subst. repeat split; auto.
    - vm_compute; discriminate.
    - exists 0%nat. split; auto. is_stored.
    - exists 0%nat. split; auto. is_stored. }
  split; [vm_compute; reflexivity|]. eexists. split; [vm_compute; reflexivity|].
  split; [intro E; qdiscr E|qcompute].
Qed.
Print Assumptions C09_proportional_secant_refuted.

(** C09: without the visibility condition the Hart update need not satisfy the secant equation (s = 0, y = 1). *)
Theorem C09_hart_unconditional_refuted :
  exists e st st' s y, setMatrix e = Ret st /\ secantUpdateHart st [s] [y] = Ret st' /\
    exists a, elementAt st' 0 0 = Ret a /\ (a * s)%Qc <> y.
Proof.
  exists [((0,0),q 2)]%nat. eexists. eexists. exists (q 0), (q 1).
  split; [vm_compute; reflexivity|]. split; [vm_compute; reflexivity|].
  eexists. split; [vm_compute; reflexivity|]. intro E. qdiscr E.
Qed.
