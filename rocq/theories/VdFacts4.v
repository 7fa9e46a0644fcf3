(** VdFacts4.v - norms of sparse matrices in doubles, from those of vectors. *)
From Coq Require Import List Arith Bool ZArith Lia Reals Lra.
From Flocq Require Import Core IEEE754.BinarySingleNaN.
From Verif Require Import Base BaseFacts SMap SpModel SpSpec VecModel VecSpec ConvSpec LufSpec LufFacts2 VecFacts IeeeSpec VdSpec VdFacts.
Import ListNotations.
Local Open Scope R_scope.

Lemma elements_one (l : list double) : elements (N:=DNum) [l] (VW 0) l.
Proof. split; [reflexivity|]. intros i Hi. change (vat (N:=DNum) [l] (VW 0) i) with (rdat (A:=double) l i). unfold rdat. change (nT DNum) with double in *. destruct (nth_error l i) eqn:E; [reflexivity|]. apply nth_error_None in E. lia. Qed.
Lemma read_one (l : list double) : vread (N:=DNum) [l] (VW 0) = Ret l.
Proof.
  rewrite (vread_ok (N:=DNum)) by (simpl; lia). f_equal. symmetry. apply elements_eq; [simpl; lia|apply elements_one].
Qed.
Lemma matrix_norms_double (m : mems DNum) (e : sexpr DNum) : let l := map snd (siter m e) : list double in all_finite l ->
  (is_finite (sinfnorm m e : double) = true /\ (forall x, In x l -> Rabs (B2R x) <= B2R (sinfnorm m e : double)) /\ ((l = [] /\ B2R (sinfnorm m e : double) = 0) \/ exists x, In x l /\ B2R (sinfnorm m e : double) = Rabs (B2R x))) /\
  (INR (S (length l)) * / 2 ^ 53 <= / 4 -> rsum (length l) (fun i => Rabs (val l i)) <= 2 ^ 1000 ->
     is_finite (sonenorm m e : double) = true /\ Rabs (B2R (sonenorm m e : double) - rsum (length l) (fun i => Rabs (val l i))) <= gam (S (length l)) (/ 2 ^ 53) * rsum (length l) (fun i => Rabs (val l i)) + INR (length l) * / 2 ^ 1073) /\
  (INR (S (length l)) * / 2 ^ 53 <= / 4 -> rsum (length l) (fun i => val l i * val l i) <= 2 ^ 1000 ->
     is_finite (seuclsq m e : double) = true /\ Rabs (B2R (seuclsq m e : double) - rsum (length l) (fun i => val l i * val l i)) <= gam (S (length l)) (/ 2 ^ 53) * rsum (length l) (fun i => val l i * val l i) + INR (length l) * / 2 ^ 1073).
Proof.
  intros l FL. destruct (norms_double [l] (VW 0) l ltac:(simpl; lia) (elements_one l) FL) as (A & B & C).
  assert (E1 : vinfnorm (N:=DNum) [l] (VW 0) = Ret (sinfnorm m e)) by (unfold vinfnorm; rewrite read_one; cbn [obind]; unfold l; rewrite fold_map; reflexivity).
  assert (E2 : vonenorm (N:=DNum) [l] (VW 0) = Ret (sonenorm m e)) by (unfold vonenorm; rewrite read_one; cbn [obind]; unfold l; rewrite fold_map; reflexivity).
  assert (E3 : veuclsq (N:=DNum) [l] (VW 0) = Ret (seuclsq m e)) by (unfold veuclsq; rewrite read_one; cbn [obind]; unfold l; rewrite fold_map; reflexivity).
  split; [|split].
  - destruct A as (r & E & A). rewrite E1 in E. injection E as <-. exact A.
  - intros NB SB. destruct (B NB SB) as (r & E & D). rewrite E2 in E. injection E as <-. exact D.
  - intros NB SB. destruct (C NB SB) as (r & E & D). rewrite E3 in E. injection E as <-. exact D.
Qed.
Lemma matrix_norms_nan (m : mems DNum) (e : sexpr DNum) p : In (p, (B754_nan : double)) (siter m e) -> (sonenorm m e : double) = B754_nan /\ (seuclsq m e : double) = B754_nan.
Proof.
  intros I. split; unfold sonenorm, seuclsq.
  - apply (nan_sum (A:=key * double) (fun el => nabs DNum (snd el)) _ (n0 DNum) (p, B754_nan) I). reflexivity.
  - apply (nan_sum (A:=key * double) (fun el => nmul DNum (snd el) (snd el)) _ (n0 DNum) (p, B754_nan) I). reflexivity.
Qed.
