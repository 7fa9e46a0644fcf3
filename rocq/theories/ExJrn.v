(** ExJrn.v - the theorems of PropJrn.v at work. *)
From Coq Require Import List Arith Lia Bool ZArith QArith Qcanon Reals Lra Psatz.
From Flocq Require Import Core.
From Verif Require Import Base BaseFacts SMap SpModel SpSpec MapModel JacModel JacSpec JacFacts JacFacts2 JacFacts3 ConvSpec StepSpec FpSpec LufSpec JrnSpec JrnFacts PropLuf PropJrn.
Import ListNotations.
Local Open Scope R_scope.

(** x |-> x^2, with one rounded multiplication *)
Definition exF (rnd : R -> R) (x : list R) : list R := [rnd (cmpR x 0 * cmpR x 0)].
Definition exg (rnd : R -> R) : vmapping (FNum rnd) := mkMap (N:=FNum rnd) 1 1 (fun x => Ret (exF rnd x)).
Definition exf (r : nat) (x : list R) : R := cmpR x 0 * cmpR x 0.
Example C86_case : forall rnd u, relative rnd u -> 0 <= u <= / 10 ^ 8 ->
  exists J log, computeJacobian (N:=FNum rnd) (/ 10 ^ 6) (exg rnd) [3] = Ret (J, log) /\ Rabs (get J (0, 0)%nat - 6) <= 33 / 10 ^ 6 + 200 * 10 ^ 6 * u.
Proof.
  intros rnd u RE U. assert (U1 : 0 <= u <= 1) by (simpl in U; lra). assert (DX : 0 < / 10 ^ 6) by (simpl; lra).
  destruct (C86_columnwise rnd u (exg rnd) (exF rnd) exf 1 (16 * u) [3] (/ 10 ^ 6) 2 (fun _ _ s => 2 * s) RE U1) as [J [log [E [_ [_ H]]]]].
  - split; [reflexivity|]. split; [reflexivity|]. intros x _. split; reflexivity.
  - intros x r Hx Hr HB. specialize (HB 0%nat). change (cmpR [3] 0) with 3 in HB. assert (r = 0)%nat as -> by lia. change (cmpR (exF rnd x) 0) with (rnd (cmpR x 0 * cmpR x 0)). unfold exf.
    eapply Rle_trans; [apply RE|]. rewrite Rmult_comm. apply Rmult_le_compat_r; [lra|]. apply Rabs_le_inv in HB. rewrite Rabs_pos_eq; [|nra]. assert (0 <= cmpR x 0 <= 4) by (simpl in HB; lra). nra.
  - reflexivity.
  - exact DX.
  - lra.
  - intros c Hc. assert (c = 0)%nat as -> by lia. change (cmpR [3] 0) with 3. rewrite Rabs_pos_eq by lra. simpl in *. nra.
  - intros r c Hr Hc s Hs. assert (c = 0)%nat as -> by lia. change (cmpR [3] 0) with 3 in *. split.
    + change (derivable_pt_lim (fun t => t * t) s (2 * s)). replace (2 * s) with (1 * s + s * 1) by ring. apply (derivable_pt_lim_mult id id); apply derivable_pt_lim_id.
    + right. replace (2 * s - 2 * 3) with (2 * (s - 3)) by ring. rewrite Rabs_mult, (Rabs_pos_eq 2) by lra. reflexivity.
  - exists J, log. split; [exact E|]. destruct (H 0%nat 0%nat ltac:(lia) ltac:(lia)) as [_ B]. change (cmpR [3] 0) with 3 in B. replace (2 * 3) with 6 in B by ring. rewrite (Rabs_pos_eq 6), (Rabs_pos_eq 3) in B by lra.
    eapply Rle_trans; [exact B|]. unfold Rdiv. rewrite Rinv_inv. simpl. lra.
Qed.
Print Assumptions C86_case.

(** A component so large that the increment is lost. *)
Lemma lost53 : binary53 (2 ^ 40 + / 10 ^ 6) = 2 ^ 40.
Proof.
  unfold binary53, round. set (x := 2 ^ 40 + / 10 ^ 6).
  assert (M : mag radix2 x = 41%Z :> Z).
  { apply mag_unique_pos. change (41 - 1)%Z with 40%Z. change (bpow radix2 40) with 1099511627776. change (bpow radix2 41) with 2199023255552. unfold x. simpl. lra. }
  unfold scaled_mantissa, cexp, FLX_exp. rewrite M. change (41 - 53)%Z with (-12)%Z. change (- -12)%Z with 12%Z.
  rewrite (Znearest_imp (fun z => negb (Z.even z)) _ (2 ^ 52)).
  - unfold F2R. change (Fnum {| Fnum := (2 ^ 52)%Z; Fexp := (-12)%Z |}) with 4503599627370496%Z. change (bpow radix2 (Fexp {| Fnum := (2 ^ 52)%Z; Fexp := (-12)%Z |})) with (/ 4096). simpl. lra.
  - change (bpow radix2 12) with 4096. change (2 ^ 52)%Z with 4503599627370496%Z. unfold x. simpl. rewrite Rabs_pos_eq; lra.
Qed.
(** Without the condition on the increment: the derivative of the identity at 2^40, computed in doubles with the increment 10^-6 of the program, is 0. *)
Theorem C86_large_components_refuted :
  exists (g : vmapping (FNum binary53)) (f : nat -> list R -> R), computes (N:=FNum binary53) g (fun x => x) 1 1 /\ evaluated (fun x => x) f 1 [2 ^ 40] (2 * / 10 ^ 6) 0 /\
    smooth_along (f 0%nat) [2 ^ 40] 0 (2 * / 10 ^ 6) 0 (fun _ => 1) /\
    exists J log, computeJacobian (N:=FNum binary53) (/ 10 ^ 6) g [2 ^ 40] = Ret (J, log) /\ get J (0, 0)%nat = 0.
Proof.
  exists (mkMap (N:=FNum binary53) 1 1 (fun x => Ret x)), (fun r x => cmpR x r).
  assert (CO : computes (N:=FNum binary53) (mkMap (N:=FNum binary53) 1 1 (fun x => Ret x)) (fun x => x) 1 1) by (split; [reflexivity|]; split; [reflexivity|]; intros x H; split; [reflexivity|exact H]).
  split; [exact CO|]. split; [intros x r _ _ _; rewrite Rminus_eq_0, Rabs_R0; lra|]. split.
  - intros s _. split; [|rewrite Rminus_eq_0, Rabs_R0; lra]. change (derivable_pt_lim (fun t => t) s 1). apply derivable_pt_lim_id.
  - destruct (computeJacobian_ok (N:=FNum binary53) (/ 10 ^ 6) _ _ 1 [2 ^ 40] CO eq_refl) as [J [E [_ [_ [_ [G _]]]]]]. exists J. eexists. split; [exact E|].
    unfold get. rewrite (G 0%nat 0%nat) by lia.
    assert (Z : change (N:=FNum binary53) (fun x => x) [2 ^ 40] (/ 10 ^ 6) 0 0 = 0).
    { unfold change, bumped. change (binary53 (binary53 (2 ^ 40 + / 10 ^ 6) - 2 ^ 40) = 0). rewrite lost53. rewrite Rminus_eq_0. unfold binary53. apply round_0. typeclasses eauto. }
    assert (Q : neqb (FNum binary53) (change (N:=FNum binary53) (fun x => x) [2 ^ 40] (/ 10 ^ 6) 0 0) (n0 (FNum binary53)) = true).
    { change (Reqb (change (N:=FNum binary53) (fun x => x) [2 ^ 40] (/ 10 ^ 6) 0 0) 0 = true). unfold Reqb. destruct (Req_EM_T _ _); [reflexivity|contradiction]. }
    rewrite Q. reflexivity.
Qed.
Print Assumptions C86_large_components_refuted.
