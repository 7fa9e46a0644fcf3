(** LudbFacts4.v - proof of C92_nonzero_solution. *)
From Coq Require Import List Arith Lia ZArith Reals.
From Flocq Require Import Core IEEE754.BinarySingleNaN.
From Verif Require Import Base LUSpec LUModel ConvSpec LufModel LufSpec IeeeSpec VdSpec LudbSpec LudbFacts LudbFacts3.
Import ListNotations.
Local Open Scope R_scope.

Lemma nonzero_solution (e : entriesN DNum) n : distinct_keys e -> acceptableN e n -> coversN e n -> INR n * / 2 ^ 53 <= / 4 ->
  exists (st st' : luN DNum) (L U : nat -> nat -> double), setMatrixN e = Ret st /\ factorizeN st = Ret st' /\ factorsN (N:=DNum) st' e n L U /\
    forall b : list double, length b = n -> exists x : list double, solveN st b = Ret (st', x) /\ length x = n /\
      ((forall r, (r < n)%nat -> is_finite (nth r x dzero) = true /\ val x r <> 0) ->
        (forall r, (r < n)%nat -> is_finite (U r r) = true /\ B2R (U r r) <> 0) /\
        (forall r, (r < n)%nat -> Rabs (rsum n (fun c => B2R (mvalN e r c : double) * val x c) - val b r) <=
           (3 * gam n (/ 2 ^ 53) + gam n (/ 2 ^ 53) * gam n (/ 2 ^ 53)) * rsum n (fun k => Rabs (lowR (realM L) r k) * rsum n (fun c => Rabs (uppR (realM U) k c) * Rabs (val x c))) +
           (rsum n (fun k => tiny n (B2R (U k k)) * Rabs (val x k)) + 2 * rsum n (fun k => Rabs (lowR (realM L) r k) * tiny n (B2R (U k k))) + INR n * / 2 ^ 1072))).
Proof.
  intros DK AC CV NB. destruct (lu_accuracy e n DK AC CV NB) as (st & st' & L & U & E1 & E2 & F & H).
  destruct (lu_double e n DK AC) as (s1 & s2 & L2 & U2 & G1 & G2 & F' & H2).
  rewrite E1 in G1. injection G1 as <-. rewrite E2 in G2. injection G2 as <-.
  exists st, st', L, U. split; [exact E1|]. split; [exact E2|]. split; [exact F|].
  intros b Lb. destruct (H b Lb) as (x & X1 & _ & X3 & K). destruct (H2 b ltac:(rewrite Lb; apply le_n)) as (x2 & Y1 & _ & _ & _ & _ & K2).
  rewrite X1 in Y1. injection Y1 as <-. exists x. split; [exact X1|]. split; [exact X3|]. intros FX.
  assert (PV : forall r, (r < n)%nat -> is_finite (U r r) = true /\ B2R (U r r) <> 0).
  { intros r Hr. destruct (K2 CV (fun r Hr => proj1 (FX r Hr))) as (_ & _ & Q). specialize (Q r Hr (proj2 (FX r Hr))).
    destruct F as (_ & FU & FZ). destruct F' as (_ & FU' & FZ').
    assert (EQ : U2 r r = U r r).
    { destruct (sky e r r) eqn:SK.
      - pose proof (FU r r (conj (le_n r) Hr) SK) as A. pose proof (FU' r r (conj (le_n r) Hr) SK) as B. rewrite A in B. injection B as B. symmetry. exact B.
      - rewrite (proj2 (FZ r r Hr Hr SK) (le_n r)), (proj2 (FZ' r r Hr Hr SK) (le_n r)). reflexivity. }
    rewrite <- EQ. exact Q. }
  split; [exact PV|]. apply (K (fun r Hr => conj (proj1 (FX r Hr)) (proj1 (PV r Hr)))).
Qed.
