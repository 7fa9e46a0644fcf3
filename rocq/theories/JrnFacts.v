(** JrnFacts.v - difference quotients in rounded arithmetic. *)
From Coq Require Import List Arith Bool Lia ZArith QArith Qcanon Reals Lra Psatz.
From Flocq Require Import Core.
From Verif Require Import Base BaseFacts SMap SpModel SpSpec SpFacts MapModel JacModel JacSpec JacFacts JacFacts2 JacFacts3 ConvSpec StepSpec FpSpec LufSpec RopSpec RopFacts JrnSpec.
Import ListNotations.
Local Open Scope R_scope.

Lemma quot_err rnd u (g D : R -> R) a h L phi F0 F1 : relative rnd u -> 0 <= u <= 1 -> 0 < h -> u * Rabs (a + h) <= h -> 0 <= L ->
  (forall s, Rabs (s - a) <= 2 * h -> derivable_pt_lim g s (D s) /\ Rabs (D s - D a) <= L * Rabs (s - a)) ->
  Rabs (F0 - g a) <= phi -> Rabs (F1 - g (rnd (a + h))) <= phi ->
  Rabs (rnd (rnd (F1 - F0) / h) - D a) <= 16 * L * h + (Rabs (D a) * u * (Rabs a + 7 * h) + 8 * phi) / h.
Proof.
  intros RE U H0 UH L0 SM E0 E1. set (b := rnd (a + h)) in *. set (k := b - a).
  assert (PH : 0 <= phi) by (pose proof (Rabs_pos (F0 - g a)); lra).
  assert (K : Rabs (k - h) <= u * Rabs (a + h)) by (unfold k; replace (b - a - h) with (rnd (a + h) - (a + h)) by (unfold b; ring); apply RE).
  assert (KA : Rabs k <= 2 * h). { replace k with (k - h + h) by ring. eapply Rle_trans; [apply Rabs_triang|]. rewrite (Rabs_pos_eq h) by lra. lra. }
  assert (MV : exists xi, g b - g a = D xi * k /\ Rabs (xi - a) <= Rabs k).
  { destruct (Rtotal_order a b) as [O|[O|O]].
    - destruct (MVT_cor2 g D a b O) as [xi [E B]]. { intros c Hc. apply SM. unfold k in KA. rewrite Rabs_pos_eq in KA |- * by lra. lra. }
      exists xi. split; [exact E|]. unfold k. rewrite !Rabs_pos_eq by lra. lra.
    - exists a. unfold k. rewrite <- O. rewrite !Rminus_eq_0, Rabs_R0. split; [ring|lra].
    - destruct (MVT_cor2 g D b a O) as [xi [E B]]. { intros c Hc. apply SM. unfold k in KA. rewrite Rabs_left1 in KA |- * by lra. lra. }
      exists xi. split; [unfold k; lra|]. unfold k. rewrite !Rabs_left1 by lra. lra. }
  destruct MV as [xi [MV XI]]. set (d := g b - g a) in *. set (A := Rabs (D a)). pose proof (Rabs_pos (D a)) as A0. fold A in A0.
  assert (DX : Rabs (D xi - D a) <= L * (2 * h)). { eapply Rle_trans; [apply SM; lra|]. apply Rmult_le_compat_l; lra. }
  assert (T1 : Rabs (d - D a * k) <= L * (4 * h * h)).
  { rewrite MV. replace (D xi * k - D a * k) with ((D xi - D a) * k) by ring. rewrite Rabs_mult. eapply Rle_trans; [apply Rmult_le_compat; [apply Rabs_pos|apply Rabs_pos|exact DX|exact KA]|]. nra. }
  assert (DD : Rabs d <= 2 * h * A + 4 * L * h * h).
  { replace d with (d - D a * k + D a * k) by ring. eapply Rle_trans; [apply Rabs_triang|]. rewrite Rabs_mult. fold A. assert (A * Rabs k <= A * (2 * h)) by (apply Rmult_le_compat_l; assumption). lra. }
  set (e := F1 - F0). assert (EE : Rabs (e - d) <= 2 * phi).
  { unfold e, d. replace (F1 - F0 - (g b - g a)) with ((F1 - g b) - (F0 - g a)) by ring. eapply Rle_trans; [apply Rabs_triang|]. rewrite Rabs_Ropp. lra. }
  assert (EA : Rabs e <= Rabs d + 2 * phi). { replace e with ((e - d) + d) by ring. eapply Rle_trans; [apply Rabs_triang|]. lra. }
  assert (R1 := RE e). set (de := rnd e) in *. assert (R2 := RE (de / h)). set (q := rnd (de / h)) in *.
  assert (DE : Rabs de <= (1 + u) * Rabs e). { replace de with ((de - e) + e) by ring. eapply Rle_trans; [apply Rabs_triang|]. lra. }
  assert (HI : 0 < / h) by (apply Rinv_0_lt_compat; assumption).
  assert (Q1 : Rabs (q * h - de) <= u * ((1 + u) * Rabs e)).
  { replace (q * h - de) with ((q - de / h) * h) by (field; lra). rewrite Rabs_mult, (Rabs_pos_eq h) by lra. unfold Rdiv in R2 at 2. rewrite Rabs_mult, (Rabs_pos_eq (/ h)) in R2 by lra.
    eapply Rle_trans; [apply Rmult_le_compat_r; [lra|exact R2]|]. replace (u * (Rabs de * / h) * h) with (u * Rabs de) by (field; lra). apply Rmult_le_compat_l; [lra|exact DE]. }
  assert (AH : Rabs (a + h) <= Rabs a + h). { eapply Rle_trans; [apply Rabs_triang|]. rewrite (Rabs_pos_eq h) by lra. lra. }
  (* total, times h *)
  assert (TOT : Rabs (q * h - D a * h) <= 16 * L * (h * h) + (A * u * (Rabs a + 7 * h) + 8 * phi)).
  { replace (q * h - D a * h) with ((q * h - de) + ((de - e) + ((e - d) + ((d - D a * k) + D a * (k - h))))) by ring.
    eapply Rle_trans; [apply Rabs_triang|]. eapply Rle_trans; [apply Rplus_le_compat_l, Rabs_triang|]. eapply Rle_trans; [apply Rplus_le_compat_l, Rplus_le_compat_l, Rabs_triang|].
    eapply Rle_trans; [apply Rplus_le_compat_l, Rplus_le_compat_l, Rplus_le_compat_l, Rabs_triang|]. rewrite (Rabs_mult (D a)). fold A.
    assert (P1 : A * Rabs (k - h) <= A * (u * (Rabs a + h))). { apply Rmult_le_compat_l; [exact A0|]. eapply Rle_trans; [exact K|]. apply Rmult_le_compat_l; lra. }
    assert (P2 : u * ((1 + u) * Rabs e) + u * Rabs e <= 3 * u * Rabs e). { pose proof (Rabs_pos e). assert (u * (u * Rabs e) <= u * (1 * Rabs e)) by (apply Rmult_le_compat_l; [lra|apply Rmult_le_compat_r; lra]). lra. }
    assert (P3 : 3 * u * Rabs e <= 3 * u * (2 * h * A + 4 * L * h * h + 2 * phi)) by (apply Rmult_le_compat_l; lra).
    assert (P4 : u * (L * h * h) <= 1 * (L * h * h)) by (apply Rmult_le_compat_r; [apply Rmult_le_pos; [apply Rmult_le_pos; lra|lra]|lra]).
    assert (P5 : u * phi <= 1 * phi) by (apply Rmult_le_compat_r; lra).
    nra. }
  apply Rmult_le_reg_r with h; [assumption|]. rewrite <- (Rabs_pos_eq h) at 1 by lra. rewrite <- Rabs_mult, Rmult_minus_distr_r. eapply Rle_trans; [exact TOT|].
  right. fold A. field. lra.
Qed.
Section J.
Context (rnd : R -> R) (u : R).
Hypothesis RE : relative rnd u.
Hypothesis U : 0 <= u <= 1.
Lemma upd_selfR (x : list R) c : upd x c (cmpR x c) = x.
Proof.
  apply (nth_ext _ _ 0 0); [apply upd_length|]. intros i Hi. rewrite nth_upd. destruct (Nat.eqb_spec i c) as [->|]; [|reflexivity]. rewrite upd_length in Hi. rewrite (proj2 (Nat.ltb_lt _ _) Hi). reflexivity.
Qed.
Lemma near_bump (x0 : list R) c dx : 0 < dx -> u * Rabs (cmpR x0 c + dx) <= dx -> forall i, Rabs (cmpR (upd x0 c (rnd (cmpR x0 c + dx))) i - cmpR x0 i) <= 2 * dx.
Proof.
  intros H0 UH i. unfold cmpR at 1. rewrite nth_upd. destruct (Nat.eqb_spec i c) as [->|].
  - destruct (c <? length x0)%nat eqn:E.
    + replace (rnd (cmpR x0 c + dx) - cmpR x0 c) with ((rnd (cmpR x0 c + dx) - (cmpR x0 c + dx)) + dx) by ring. eapply Rle_trans; [apply Rabs_triang|]. rewrite (Rabs_pos_eq dx) by lra.
      pose proof (RE (cmpR x0 c + dx)). lra.
    + fold (cmpR x0 c). apply Nat.ltb_ge in E. unfold cmpR. rewrite nth_overflow by assumption. rewrite Rminus_eq_0, Rabs_R0. lra.
  - fold (cmpR x0 i). rewrite Rminus_eq_0, Rabs_R0. lra.
Qed.
Lemma quotient_err (F : list R -> list R) f n phi x0 dx r c L D : evaluated F f n x0 (2 * dx) phi -> length x0 = n -> (r < n)%nat -> (c < n)%nat ->
  0 < dx -> u * Rabs (cmpR x0 c + dx) <= dx -> 0 <= L -> smooth_along (f r) x0 c (2 * dx) L D ->
  Rabs (quotient (N:=FNum rnd) F x0 dx r c - D (cmpR x0 c)) <= 16 * L * dx + (Rabs (D (cmpR x0 c)) * u * (Rabs (cmpR x0 c) + 7 * dx) + 8 * phi) / dx.
Proof.
  intros EV LX Hr Hc H0 UH L0 SM.
  assert (E0 : Rabs (cmpR (F x0) r - f r (upd x0 c (cmpR x0 c))) <= phi) by (rewrite upd_selfR; apply EV; [assumption|assumption|]; intros i; rewrite Rminus_eq_0, Rabs_R0; lra).
  assert (E1 : Rabs (cmpR (F (upd x0 c (rnd (cmpR x0 c + dx)))) r - f r (upd x0 c (rnd (cmpR x0 c + dx)))) <= phi) by (apply EV; [rewrite upd_length; assumption|assumption|apply near_bump; assumption]).
  exact (quot_err rnd u (fun t => f r (upd x0 c t)) D (cmpR x0 c) dx L phi (cmpR (F x0) r) (cmpR (F (upd x0 c (rnd (cmpR x0 c + dx)))) r) RE U H0 UH L0 SM E0 E1).
Qed.
Lemma quotient0 (F : list R -> list R) x0 dx r c : neqb (FNum rnd) (change (N:=FNum rnd) F x0 dx r c) (n0 (FNum rnd)) = true -> quotient (N:=FNum rnd) F x0 dx r c = 0.
Proof.
  intros H. unfold quotient. change (ndiv (FNum rnd)) with (fun x y : R => rnd (x / y)). cbv beta. cbn [neqb FNum n0] in H. unfold Reqb in H. destruct (Req_EM_T _ _) as [E|]; [|discriminate].
  change (nT (FNum rnd)) with R in *. rewrite E. unfold Rdiv. rewrite Rmult_0_l. apply (rnd0 rnd u RE).
Qed.
Lemma jac_rounded (g : vmapping (FNum rnd)) (F : list R -> list R) f n phi x0 dx L (D : nat -> nat -> R -> R) : computes g F n n -> evaluated F f n x0 (2 * dx) phi -> length x0 = n ->
  0 < dx -> 0 <= L -> (forall c, (c < n)%nat -> u * Rabs (cmpR x0 c + dx) <= dx) -> (forall r c, (r < n)%nat -> (c < n)%nat -> smooth_along (f r) x0 c (2 * dx) L (D r c)) ->
  exists J log, computeJacobian (N:=FNum rnd) dx g x0 = Ret (J, log) /\ default_provider (N:=FNum rnd) dx None g x0 = Ret (to_fast J) /\ ssz J = (n, n) /\
    forall r c, (r < n)%nat -> (c < n)%nat -> get (to_fast J) (r, c) = get J (r, c) /\
      Rabs (get J (r, c) - D r c (cmpR x0 c)) <= 16 * L * dx + (Rabs (D r c (cmpR x0 c)) * u * (Rabs (cmpR x0 c) + 7 * dx) + 8 * phi) / dx.
Proof.
  intros CO EV LX H0 L0 UH SM. destruct (computeJacobian_ok (N:=FNum rnd) dx g F n x0 CO LX) as [J [E [A [B [C [G1 G2]]]]]].
  exists J. eexists. split; [exact E|]. split; [unfold default_provider; rewrite E; reflexivity|]. split; [exact B|]. intros r c Hr Hc. split.
  - unfold get. assert (X : sfind (to_fast J) (r, c) = sfind J (r, c)).
    { destruct (sfind J (r, c)) as [x|] eqn:Q.
      - apply sfind_In; [exact C|]. apply sfind_In in Q; [exact Q|exact C].
      - destruct (sfind (to_fast J) (r, c)) as [x|] eqn:Q'; [|reflexivity]. apply sfind_In in Q'; [|exact C]. simpl in Q'. apply (proj2 (sfind_In J (r, c) x C)) in Q'. congruence. }
    rewrite X. reflexivity.
  - assert (X : get J (r, c) = quotient (N:=FNum rnd) F x0 dx r c).
    { unfold get. rewrite G1 by assumption. destruct (neqb _ _ _) eqn:Q; [|reflexivity]. symmetry. apply quotient0. exact Q. }
    rewrite X. apply (quotient_err F f n phi); auto.
Qed.
Lemma sparse_jac_rounded (g : vmapping (FNum rnd)) (F : list R -> list R) f n phi x0 dx L (D : nat -> nat -> R -> R) (J : smat (FNum rnd)) : computes g F n n -> evaluated F f n x0 (2 * dx) phi -> length x0 = n ->
  0 < dx -> 0 <= L -> (forall c, (c < n)%nat -> u * Rabs (cmpR x0 c + dx) <= dx) -> (forall r c, (r < n)%nat -> (c < n)%nat -> smooth_along (f r) x0 c (2 * dx) L (D r c)) ->
  ssz J = (n, n) -> well_sized J -> respects (N:=FNum rnd) F n J ->
  exists J' log, computeSparseJacobian (N:=FNum rnd) dx g x0 J = Ret (J', log) /\ length log = S (length (groups J)) /\ map fst (sdat J') = map fst (sdat J) /\
    forall r c v, In ((r, c), v) (sdat J') -> Rabs (v - D r c (cmpR x0 c)) <= 16 * L * dx + (Rabs (D r c (cmpR x0 c)) * u * (Rabs (cmpR x0 c) + 7 * dx) + 8 * phi) / dx.
Proof.
  intros CO EV LX H0 L0 UH SM SZ WS RS. destruct (calculate_respects (N:=FNum rnd) dx g F n n x0 J CO SZ LX WS RS) as [J' [xs [E [_ [_ [K [G V]]]]]]].
  exists J'. eexists. split; [exact E|]. split; [exact (f_equal S G)|]. split; [exact K|]. intros r c v H.
  assert (ST : stored J r c). { assert (I0 : In (r, c) (map fst (sdat J'))) by exact (in_map fst _ _ H). rewrite K in I0. apply in_map_iff in I0 as [[k x] [E1 I]]. simpl in E1. subst k. exists x. exact I. }
  apply WS in ST. rewrite SZ in ST. simpl in ST. destruct ST as [Hr Hc]. rewrite (V r c v H). apply (quotient_err F f n phi); auto.
Qed.
End J.
