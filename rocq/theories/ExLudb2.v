(** ExLudb2.v - the theorem of PropLudb2.v at work. *)
From Coq Require Import List Arith Bool Lia ZArith Reals Lra.
From Flocq Require Import Core IEEE754.BinarySingleNaN.
From Verif Require Import Base LUSpec LUModel ConvSpec LufModel LufSpec IeeeSpec VdSpec LudbSpec ExVd ExLudb PropLudb2.
Import ListNotations.
Local Open Scope R_scope.

(** [[2, 1], [4, 3]] x = (3, 7): the conditions of the theorem hold, and the second residual is bounded. *)
Definition exE : entriesN DNum := full2 (dbl 2 0) (dbl 1 0) (dbl 4 0) (dbl 3 0).
Example C92_accuracy_case : exists st st' (x : list double) (L U : nat -> nat -> double), setMatrixN exE = Ret st /\ solveN st [dbl 3 0; dbl 7 0] = Ret (st', x) /\ factorsN (N:=DNum) st' exE 2 L U /\
  (forall r, (r < 2)%nat -> is_finite (nth r x dzero) = true /\ is_finite (U r r) = true) /\
  Rabs (4 * val x 0 + 3 * val x 1 - 7) <=
    (3 * gam 2 (/ 2 ^ 53) + gam 2 (/ 2 ^ 53) * gam 2 (/ 2 ^ 53)) * rsum 2 (fun k => Rabs (lowR (realM L) 1 k) * rsum 2 (fun c => Rabs (uppR (realM U) k c) * Rabs (val x c))) +
    (rsum 2 (fun k => tiny 2 (B2R (U k k)) * Rabs (val x k)) + 2 * rsum 2 (fun k => Rabs (lowR (realM L) 1 k) * tiny 2 (B2R (U k k))) + INR 2 * / 2 ^ 1072).
Proof.
  destruct (full2_ok (dbl 2 0) (dbl 1 0) (dbl 4 0) (dbl 3 0)) as (D & A & C). fold exE in D, A, C.
  assert (NB : INR 2 * / 2 ^ 53 <= / 4). { replace (/ 2 ^ 53) with (/ 16 * / 2 ^ 49) by (change 53%nat with (4 + 49)%nat; rewrite pow_add; field; apply pow_nonzero; lra).
    assert (0 < / 2 ^ 49 <= 1). { split; [apply Rinv_0_lt_compat, pow_lt; lra|]. rewrite <- Rinv_1. apply Rinv_le_contravar; [lra|apply pow_R1_Rle; lra]. } simpl INR. lra. }
  destruct (C92_accuracy exE 2 D A C NB) as (st & st' & L & U & E1 & E2 & F & H). destruct (H [dbl 3 0; dbl 7 0] eq_refl) as (x & X & _ & LX & K).
  assert (Q : match (st <- setMatrixN exE ;; solveN st [dbl 3 0; dbl 7 0]) with
              | Ret (st', [x; y]) => is_finite (x : double) && is_finite (y : double) && match getUN (nlay st') (nu st') 0 0 with Ret p => is_finite (p : double) | _ => false end && match getUN (nlay st') (nu st') 1 1 with Ret p => is_finite (p : double) | _ => false end
              | _ => false end = true) by (vm_compute; reflexivity).
  rewrite E1 in Q. cbn [obind] in Q. rewrite X in Q. destruct x as [|x1 [|x2 [|x3 x]]]; try discriminate Q. apply andb_prop in Q as [Q Q4]. apply andb_prop in Q as [Q Q3]. apply andb_prop in Q as [Q1 Q2].
  destruct F as (F1 & F2 & F3). rewrite (F2 0%nat 0%nat ltac:(lia) eq_refl) in Q3. rewrite (F2 1%nat 1%nat ltac:(lia) eq_refl) in Q4.
  assert (FX : forall r, (r < 2)%nat -> is_finite (nth r [x1; x2] dzero) = true /\ is_finite (U r r) = true).
  { intros [|[|r]] Hr; [split; [exact Q1|exact Q3]|split; [exact Q2|exact Q4]|lia]. }
  exists st, st', [x1; x2], L, U. split; [exact E1|]. split; [exact X|]. split; [exact (conj F1 (conj F2 F3))|]. split; [exact FX|].
  destruct (K FX) as [_ R]. specialize (R 1%nat ltac:(lia)).
  assert (V : rsum 2 (fun c => B2R (mvalN exE 1 c : double) * val [x1; x2] c) - val [dbl 3 0; dbl 7 0] 1 = 4 * val [x1; x2] 0 + 3 * val [x1; x2] 1 - 7).
  { assert (V0 : B2R (mvalN exE 1 0 : double) = 4) by (change (B2R (dbl 4 0) = 4); vm_compute; lra). assert (V1 : B2R (mvalN exE 1 1 : double) = 3) by (change (B2R (dbl 3 0) = 3); vm_compute; lra).
    assert (V2 : val [dbl 3 0; dbl 7 0] 1 = 7) by (change (B2R (dbl 7 0) = 7); vm_compute; lra). cbn [rsum]. rewrite V0, V1, V2. ring. }
  rewrite V in R. exact R.
Qed.
Print Assumptions C92_accuracy_case.
(** The solution of the same system has finite components, none of them zero. *)
Example C92_nonzero_solution_case : exists st st' (x : list double), setMatrixN exE = Ret st /\ solveN st [dbl 3 0; dbl 7 0] = Ret (st', x) /\ forall r, (r < 2)%nat -> is_finite (nth r x dzero) = true /\ val x r <> 0.
Proof.
  destruct C92_accuracy_case as (st & st' & x & L & U & E1 & X & _ & FX & _). exists st, st', x. split; [exact E1|]. split; [exact X|].
  assert (Q : match (st <- setMatrixN exE ;; solveN st [dbl 3 0; dbl 7 0]) with
              | Ret (_, [B754_finite _ _ _ _; B754_finite _ _ _ _]) => true | _ => false end = true) by (vm_compute; reflexivity).
  rewrite E1 in Q. cbn [obind] in Q. rewrite X in Q. destruct x as [|x1 [|x2 [|x3 x]]]; [discriminate Q|destruct x1; discriminate Q| |destruct x1; try discriminate Q; destruct x2; discriminate Q].
  destruct x1 as [s|s| |s m k H1]; try discriminate Q. destruct x2 as [s2|s2| |s2 m2 k2 H2]; try discriminate Q.
  intros [|[|r]] Hr; [split; [reflexivity|]|split; [reflexivity|]|lia]; cbn [val nth B2R]; intros B; apply eq_0_F2R in B; [destruct s|destruct s2]; discriminate B.
Qed.
Print Assumptions C92_nonzero_solution_case.
