(** ExVec.v - concrete cases meeting the hypotheses of the theorems in PropVec.v, and refutations of the
    unconditional claims. *)
From Coq Require Import List Arith QArith Qcanon Lia ZArith.
From Verif Require Import Base BaseFacts VecModel VecSpec VecFacts VecFacts2 VecFacts3.
Import ListNotations.
Local Open Scope nat_scope.

Definition q (z : Z) : Qc := Q2Qc (inject_Z z).
Definition ql (l : list Z) : list Qc := map q l.
(** Two vectors, (1,2,3,4,5) and (10,20,30). *)
Definition exm : mem QcNum := [ql [1;2;3;4;5]%Z; ql [10;20;30]%Z].
Definition view_mem (r : mem QcNum * Outcome unit) : list (list Q) * bool :=
  (map (map this) (fst r), match snd r with Ret _ => true | _ => false end).

(** v.block(1,3) += w.scaled(2) : hypotheses hold, and the result. *)
Example plus_case :
  let dst := VB (VW 0) 1 3 : vexpr QcNum in let src := VS (N:=QcNum) (VW 1) (q 2) in
  well_formed exm dst /\ assignable dst /\ well_formed exm src /\ vsize exm dst <= vsize exm src /\ order_safe exm dst src /\
  view_mem (vpluseq exm dst src) = (map (map inject_Z) [[1;22;43;64;5];[10;20;30]]%Z, true).
Proof. cbv zeta. repeat split; simpl; try lia; try (left; simpl; lia); reflexivity. Qed.
(** v.block(0,4) -= v.block(1,4): overlapping in the harmless direction. *)
Example minus_overlap_case :
  let dst := VB (VW 0) 0 4 : vexpr QcNum in let src := VB (VW 0) 1 4 : vexpr QcNum in
  order_safe exm dst src /\
  view_mem (vminuseq exm dst src) = (map (map inject_Z) [[-1;-1;-1;-1;5];[10;20;30]]%Z, true).
Proof. cbv zeta. split; [right; left; simpl; lia|reflexivity]. Qed.
Example times_case :
  view_mem (vtimeseq exm (VB (VB (VW 0) 1 4) 2 2) (q 10)) = (map (map inject_Z) [[1;2;3;40;50];[10;20;30]]%Z, true).
Proof. reflexivity. Qed.
(** The shorter operand: v += w throws after three elements. *)
Example shorter_case :
  let r := vpluseq exm (VW 0) (VW 1) in
  snd r = Throw /\ view_mem r = (map (map inject_Z) [[11;22;33;4;5];[10;20;30]]%Z, false).
Proof. cbv zeta. split; reflexivity. Qed.

(** The claim without the overlap condition is false: v.block(1,4) += v.block(0,4) accumulates. *)
Theorem C01_overlapping_blocks_refuted :
  ~ (forall (m : mem QcNum) (dst src : vexpr QcNum),
       well_formed m dst -> assignable dst -> well_formed m src -> vsize m dst = vsize m src ->
       exists m', vpluseq m dst src = (m', Ret tt) /\
         forall i x y, i < vsize m dst -> vat m dst i = Ret x -> vat m src i = Ret y -> vat m' dst i = Ret (x + y)%Qc).
Proof.
  intros H. destruct (H exm (VB (VW 0) 1 4) (VB (VW 0) 0 4)) as [m' [R V]].
  { split; simpl; lia. } { exact I. } { split; simpl; lia. } { reflexivity. }
  specialize (V 1 (q 3) (q 2) ltac:(simpl; lia) eq_refl eq_refl).
  assert (Q : vat (fst (vpluseq exm (VB (VW 0) 1 4) (VB (VW 0) 0 4))) (VB (VW 0) 1 4) 1 = Ret (q 3 + q 2)%Qc) by (rewrite R; exact V).
  clear -Q. apply (f_equal (fun o : Outcome Qc => match o with Ret x => this x | _ => 0%Q end)) in Q. vm_compute in Q. discriminate.
Qed.
Print Assumptions C01_overlapping_blocks_refuted.

(** The out-of-range error is not reported when the shorter operand is a block: the elements behind the
    block are used instead. *)
Theorem C01_shorter_block_refuted :
  ~ (forall (m : mem QcNum) (dst src : vexpr QcNum),
       well_formed m dst -> assignable dst -> well_formed m src -> vbase dst <> vbase src -> vsize m src < vsize m dst ->
       snd (vpluseq m dst src) = Throw).
Proof.
  intros H. specialize (H exm (VW 1) (VB (VW 0) 0 2)). cbv in H.
  discriminate H; try lia; repeat split; try lia.
Qed.
Print Assumptions C01_shorter_block_refuted.
Example shorter_block_case :
  view_mem (vpluseq exm (VW 1) (VB (VW 0) 0 2)) = (map (map inject_Z) [[1;2;3;4;5];[11;22;33]]%Z, true).
Proof. reflexivity. Qed.

(** Assignment. *)
Example assign_case :
  let src := VS (N:=QcNum) (VB (VW 0) 1 4) (q 3) in
  well_formed exm src /\ vbase src <> 1 /\ elements exm src (ql [6;9;12;15]%Z) /\
  view_mem (vassign exm (VW 1) src) = (map (map inject_Z) [[1;2;3;4;5];[6;9;12;15]]%Z, true).
Proof.
  cbv zeta. split; [split; simpl; lia|]. split; [simpl; lia|]. split; [|reflexivity].
  split; [reflexivity|]. intros i Hi. simpl in Hi.
  do 4 (destruct i as [|i]; [simpl; f_equal; apply Qc_is_canon; reflexivity|]). lia.
Qed.
Example clone_case : map (map this) (fst (vclone exm (VB (VW 0) 1 2))) = map (map inject_Z) [[1;2;3;4;5];[10;20;30];[2;3]]%Z.
Proof. reflexivity. Qed.
Example sum_case : map (map this) (fst (vminus exm (VB (VW 0) 2 3) (VW 1))) = map (map inject_Z) [[1;2;3;4;5];[10;20;30];[-7;-16;-25]]%Z.
Proof. reflexivity. Qed.
Example norms_case :
  let v := [ql [3;-4;2]%Z] : mem QcNum in
  vdot v (VW 0) (VW 0) = Ret (q 29) /\ vinfnorm v (VW 0) = Ret (q 4) /\ vonenorm v (VW 0) = Ret (q 9) /\ veuclsq v (VW 0) = Ret (q 29).
Proof. cbv zeta. repeat split; unfold vdot, vinfnorm, vonenorm, veuclsq; simpl; f_equal; apply Qc_is_canon; reflexivity. Qed.

(** v = v.block(1,4): the vector is resized before the block is read, so the copy runs past its end. *)
Theorem C56_assign_own_block_refuted :
  ~ (forall (m : mem QcNum) (id : nat) (src : vexpr QcNum) (l : list Qc),
       id < length m -> well_formed m src -> elements m src l ->
       exists m', vassign m (VW id) src = (m', Ret tt) /\ replaced m m' id l).
Proof.
  intros H. destruct (H exm 0 (VB (VW 0) 1 4) (ql [2;3;4;5]%Z)) as [m' [R _]].
  { simpl; lia. } { split; simpl; lia. }
  { split; [reflexivity|]. intros i Hi; simpl in Hi. do 4 (destruct i as [|i]; [reflexivity|]). lia. }
  assert (Q : snd (vassign exm (VW 0) (VB (VW 0) 1 4)) = Ret tt) by (rewrite R; reflexivity).
  vm_compute in Q. discriminate.
Qed.
Print Assumptions C56_assign_own_block_refuted.

(** A block accepts a longer right-hand side and overwrites the elements behind it. *)
Theorem C56_block_assign_stays_inside_refuted :
  ~ (forall (m : mem QcNum) (e : vexpr QcNum) from s src,
       well_formed m (VB e from s) -> assignable e -> well_formed m src -> vbase src <> vbase e ->
       only_changes m (fst (vassign m (VB e from s) src)) (VB e from s)).
Proof.
  intros H. destruct (H exm (VW 0) 0 2 (VW 1)) as [_ [_ Q]].
  { split; simpl; lia. } { exact I. } { simpl; lia. } { simpl; lia. }
  specialize (Q 0 2 ltac:(right; right; simpl; lia)).
  apply (f_equal (option_map this)) in Q. vm_compute in Q. discriminate.
Qed.
Print Assumptions C56_block_assign_stays_inside_refuted.

(** With NaN elements the maximum norm can be an ordinary number: NaN is skipped. *)
Theorem C56_infnorm_propagates_nan_refuted :
  ~ (forall (m : mem NanNum) (e : vexpr NanNum) (l : list (option Qc)),
       well_formed m e -> elements m e l -> In None l -> vinfnorm m e = Ret None).
Proof.
  intros H. specialize (H [[None; Some (q 1)]] (VW 0) [None; Some (q 1)] ltac:(simpl; lia)).
  assert (E : elements (N:=NanNum) [[None; Some (q 1)]] (VW 0) [None; Some (q 1)]).
  { split; [reflexivity|]. intros i Hi; simpl in Hi. do 2 (destruct i as [|i]; [reflexivity|]). lia. }
  specialize (H E (or_introl eq_refl)). vm_compute in H. discriminate.
Qed.
Print Assumptions C56_infnorm_propagates_nan_refuted.
