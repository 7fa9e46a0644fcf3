(** XrkFacts4.v - even and odd polynomials, central differences; the weights of the modified midpoint rule. *)
From Coq Require Import List Arith Bool ZArith QArith Qcanon Lia Field.
From Verif Require Import Base BaseFacts VecModel VOps RkModel RkSpec RkFacts StepSpec ExtModel ExtSpec ExtFacts ExtFacts2 XrkFacts XrkFacts2 XrkFacts3.
Import ListNotations.
Local Open Scope Qc_scope.

Fixpoint pl (d : nat) (c : Qc) (F : Qc -> Qc) : Prop :=
  match d with
  | O => forall x, F x = c
  | S d' => exists c' G, pl d' c' G /\ forall x, F x = c * x ^ d + G x
  end.
Lemma pl_ext d c c' F G : (forall i, F i = G i) -> c = c' -> pl d c F -> pl d c' G.
Proof.
  intros E <-. destruct d as [|d]; cbn [pl].
  - intros H i. rewrite <- E. apply H.
  - intros (e & K & P & H). exists e, K. split; [exact P|]. intros i. rewrite <- E. apply H.
Qed.
Lemma pl_add d : forall c c' F G, pl d c F -> pl d c' G -> pl d (c + c') (fun i => F i + G i).
Proof.
  induction d as [|d I]; cbn [pl]; intros c c' F G.
  - intros H K i. rewrite H, K. reflexivity.
  - intros (e & K & P & H) (e' & K' & P' & H'). exists (e + e'), (fun i => K i + K' i). split; [apply I; assumption|]. intros i. rewrite H, H'. ring.
Qed.
Lemma pl_scale d a : forall c F, pl d c F -> pl d (a * c) (fun i => a * F i).
Proof.
  induction d as [|d I]; cbn [pl]; intros c F.
  - intros H i. rewrite H. reflexivity.
  - intros (e & K & P & H). exists (a * e), (fun i => a * K i). split; [apply I; assumption|]. intros i. rewrite H. ring.
Qed.
Lemma pl_up d c F : pl d c F -> pl (S d) 0 F.
Proof. intros P. cbn [pl]. exists c, F. split; [exact P|]. intros i. ring. Qed.
Lemma pl_const d c : pl (S d) 0 (fun _ => c).
Proof. induction d as [|d I]; [apply (pl_up 0 c); intros ?; reflexivity|]. eapply pl_up. exact I. Qed.
Lemma pl_x d : forall c F, pl d c F -> pl (S d) c (fun i => i * F i).
Proof.
  induction d as [|d I]; intros c F.
  - cbn [pl]. intros H. exists 0, (fun _ => 0). split; [intros ?; reflexivity|]. intros i. rewrite H. cbn [Qcpower]. ring.
  - intros (e & K & P & H). exists e, (fun i => i * K i). split; [apply I; exact P|]. intros i. rewrite H. rewrite !pow_S. ring.
Qed.
Lemma pl_xk k d c F : pl d c F -> pl (k + d) c (fun i => i ^ k * F i).
Proof.
  intros P. induction k as [|k I]; cbn [Nat.add].
  - eapply pl_ext; [|reflexivity|exact P]. intros i. cbn [Qcpower]. ring.
  - eapply pl_ext; [|reflexivity|apply pl_x; exact I]. intros i. cbn beta. rewrite pow_S. ring.
Qed.
Lemma pl_mult d : forall e c c' F G, pl d c F -> pl e c' G -> pl (d + e) (c * c') (fun i => F i * G i).
Proof.
  induction d as [|d I]; intros e c c' F G P P'.
  - cbn [pl] in P. cbn [Nat.add]. eapply pl_ext; [|reflexivity|apply (pl_scale e c); exact P']. intros i. cbn beta. rewrite P. reflexivity.
  - destruct P as (k & K & P & H). cbn [Nat.add]. eapply pl_ext; [| |apply pl_add; [apply (pl_scale _ c), (pl_xk (S d)); exact P'|eapply pl_up; exact (I e k c' K G P P')]].
    + intros i. cbn beta. rewrite H. ring.
    + ring.
Qed.
(** signs *)
Definition sn (d : nat) : Qc := (-(1)) ^ d.
Lemma sn_S d : sn (S d) = - sn d. Proof. unfold sn. rewrite pow_S. ring. Qed.
Lemma sn_sq d : sn d * sn d = 1. Proof. induction d as [|d I]; [reflexivity|]. rewrite sn_S. rewrite <- I. ring. Qed.
Lemma sn_add d e : sn (d + e) = sn d * sn e. Proof. apply pow_add. Qed.
Lemma pow_opp x d : (- x) ^ d = sn d * x ^ d.
Proof. induction d as [|d I]; [reflexivity|]. rewrite !pow_S, I, sn_S. ring. Qed.
Lemma pl_opp d : forall c F, pl d c F -> pl d (sn d * c) (fun x => F (- x)).
Proof.
  induction d as [|d I]; intros c F.
  - cbn [pl]. intros H i. rewrite H. unfold sn. cbn. ring.
  - intros (e & K & P & H). exists (sn d * e), (fun x => K (- x)). split; [apply I; exact P|]. intros i. rewrite H, pow_opp. ring.
Qed.
(** central sums and differences of powers *)
Lemma pl_cd m : pl m (qn 2 * qn (S m)) (fun x => (x + 1) ^ S m - (x - 1) ^ S m) /\ pl (S m) (qn 2) (fun x => (x + 1) ^ S m + (x - 1) ^ S m).
Proof.
  assert (Q2 : qn 2 = 1 + 1) by (apply Qc_is_canon; reflexivity).
  induction m as [|m [ID IS]].
  - split; [intros x; cbn [Qcpower]; rewrite Q2, qn_1; ring|]. exists 0, (fun _ => 0). split; [intros ?; reflexivity|]. intros x. cbn [Qcpower]. rewrite Q2. ring.
  - split.
    + eapply pl_ext; [| |exact (pl_add _ _ _ _ _ (pl_x _ _ _ ID) IS)].
      * intros x. cbn beta. rewrite !(pow_S _ (S m)). ring.
      * rewrite (qn_S (S m)). ring.
    + eapply pl_ext; [| |exact (pl_add _ _ _ _ _ (pl_x _ _ _ IS) (pl_up _ _ _ (pl_up _ _ _ ID)))].
      * intros x. cbn beta. rewrite !(pow_S _ (S m)). ring.
      * ring.
Qed.
(** the central sum of a polynomial *)
Lemma pl_cs d : forall c F, pl d c F -> pl d (qn 2 * c) (fun x => F (x + 1) + F (x - 1)).
Proof.
  assert (Q2 : qn 2 = 1 + 1) by (apply Qc_is_canon; reflexivity).
  induction d as [|d I]; intros c F.
  - cbn [pl]. intros H x. rewrite !H, Q2. ring.
  - intros (e & K & P & H). eapply pl_ext; [| |exact (pl_add _ _ _ _ _ (pl_scale _ c _ _ (proj2 (pl_cd d))) (pl_up _ _ _ (I _ _ P)))].
    + intros x. cbn beta. rewrite !H. ring.
    + ring.
Qed.
(** every polynomial is half a central difference *)
Lemma pl_inv d : forall c F, pl d c F -> exists G, pl (S d) (c / qn (S d)) G /\ forall x, G (x + 1) - G (x - 1) = qn 2 * F x.
Proof.
  assert (Q2 : qn 2 = 1 + 1) by (apply Qc_is_canon; reflexivity).
  induction d as [|d I]; intros c F P.
  - cbn [pl] in P. exists (fun x => c * x). split.
    + exists 0, (fun _ => 0). split; [intros ?; reflexivity|]. intros x. rewrite qn_1. cbn [Qcpower]. field. discriminate.
    + intros x. rewrite P, Q2. ring.
  - destruct P as (e & K & P & H). destruct (pl_cd (S d)) as [(l & L & PL & HL) _]. pose proof (qn_pos (S (S d)) ltac:(lia)) as NZ. assert (N2 : qn 2 <> 0) by (apply qn_pos; lia).
    set (b := c / qn (S (S d))). destruct (I (e + - (b / qn 2) * l) (fun x => K x + - (b / qn 2) * L x)) as (G & PG & HG); [apply pl_add; [exact P|apply pl_scale; exact PL]|].
    exists (fun x => b * x ^ S (S d) + G x). split.
    + eexists; exists G. split; [exact PG|]. intros x. reflexivity.
    + intros x. replace (b * (x + 1) ^ S (S d) + G (x + 1) - (b * (x - 1) ^ S (S d) + G (x - 1))) with (b * ((x + 1) ^ S (S d) - (x - 1) ^ S (S d)) + (G (x + 1) - G (x - 1))) by ring.
      rewrite HL, HG, H. unfold b. field. auto.
Qed.
Definition parity (d : nat) (F : Qc -> Qc) : Prop := forall x, F (- x) = sn d * F x.
Lemma parity_inv d c F : pl d c F -> parity d F -> exists G, pl (S d) (c / qn (S d)) G /\ parity (S d) G /\ forall x, G (x + 1) - G (x - 1) = qn 2 * F x.
Proof.
  intros P E. destruct (pl_inv d c F P) as (G & PG & HG). assert (Q2 : qn 2 = 1 + 1) by (apply Qc_is_canon; reflexivity). assert (N2 : qn 2 <> 0) by (apply qn_pos; lia).
  exists (fun x => 1 / qn 2 * (G x + sn (S d) * G (- x))). split; [|split].
  - eapply pl_ext; [| |exact (pl_scale _ (1 / qn 2) _ _ (pl_add _ _ _ _ _ PG (pl_scale _ (sn (S d)) _ _ (pl_opp _ _ _ PG))))]; [reflexivity|].
    replace (sn (S d) * (sn (S d) * (c / qn (S d)))) with (sn (S d) * sn (S d) * (c / qn (S d))) by ring. rewrite sn_sq, Q2. field. split; [apply qn_pos; lia|discriminate].
  - intros x. replace (- - x) with x by ring. pose proof (sn_sq (S d)) as SQ. transitivity (1 / qn 2 * (sn (S d) * sn (S d) * G (- x) + sn (S d) * G x)); [rewrite SQ; ring|ring].
  - intros x. pose proof (HG (- x)) as HM. pose proof (HG x) as HP. rewrite E in HM. replace (- (x + 1)) with (- x - 1) by ring. replace (- (x - 1)) with (- x + 1) by ring.
    transitivity (1 / qn 2 * ((G (x + 1) - G (x - 1)) - sn (S d) * (G (- x + 1) - G (- x - 1)))); [ring|]. rewrite HP, HM. rewrite sn_S. pose proof (sn_sq d) as SQ.
    transitivity (1 / qn 2 * (qn 2 * (1 + sn d * sn d) * F x)); [ring|]. rewrite SQ, Q2. field. discriminate.
Qed.
Lemma parity_0 d F : parity (S (2 * d)) F -> F 0 = 0.
Proof.
  intros E. pose proof (E 0) as H. assert (S1 : sn (2 * d) = 1) by (replace (2 * d)%nat with (d + d)%nat by lia; rewrite sn_add; apply sn_sq). rewrite sn_S, S1 in H. replace (- 0) with 0 in H by ring.
  assert (Q2 : (1 + 1) * F 0 = 0) by (transitivity (F 0 - (- (1) * F 0)); [ring|]; rewrite <- H; ring). destruct (Qcmult_integral _ _ Q2); [discriminate|assumption].
Qed.
(** in powers of 1/x^2 *)
Lemma parity_div : forall k d c F, (d <= k)%nat -> (0 < d)%nat -> pl d c F -> parity d F -> F 0 = 0 ->
  exists r, length r = ((d + 1) / 2)%nat /\ peval r 0 = c /\ forall x, x <> 0 -> F x / x ^ d = peval r (1 / (x * x)).
Proof.
  induction k as [|k I]; intros d c F Hk Hd P E Z; [lia|].
  destruct d as [|d]; [lia|]. destruct P as (e & G & P & H). assert (GZ : G 0 = 0) by (transitivity (c * 0 ^ S d + G 0); [cbn [Qcpower]; ring|rewrite <- H; exact Z]).
  assert (EG : parity (S d) G). { intros x. pose proof (E x) as EX. rewrite !H in EX. rewrite pow_opp in EX. transitivity (sn (S d) * (c * x ^ S d + G x) - c * (sn (S d) * x ^ S d)); [rewrite <- EX; ring|ring]. }
  destruct d as [|d].
  - exists [c]. split; [reflexivity|]. split; [cbn [peval]; ring|]. intros x NX. rewrite H. cbn [pl] in P. rewrite P in *. subst e. cbn [Qcpower peval]. field. exact NX.
  - assert (Q2 : qn 2 = 1 + 1) by (apply Qc_is_canon; reflexivity). assert (N2 : qn 2 <> 0) by (apply qn_pos; lia).
    assert (GP : pl (S d) 0 G).
    { eapply pl_ext; [| |exact (pl_scale _ (1 / qn 2) _ _ (pl_add _ _ _ _ _ P (pl_scale _ (sn (S (S d))) _ _ (pl_opp _ _ _ P))))].
      - intros x. cbn beta. rewrite EG. replace (sn (S (S d)) * (sn (S (S d)) * G x)) with (sn (S (S d)) * sn (S (S d)) * G x) by ring. rewrite sn_sq, Q2. field. discriminate.
      - rewrite (sn_S (S d)). replace (- sn (S d) * (sn (S d) * e)) with (- (sn (S d) * sn (S d)) * e) by ring. rewrite sn_sq. ring. }
    destruct GP as (e' & G' & P' & H'). assert (EG' : parity d G'). { intros x. pose proof (EG x) as EX. rewrite !H' in EX. rewrite !sn_S in EX. transitivity (0 * (- x) ^ S d + G' (- x)); [ring|]. rewrite EX. ring. }
    assert (GZ' : G' 0 = 0) by (transitivity (0 * 0 ^ S d + G' 0); [ring|rewrite <- H'; exact GZ]).
    destruct d as [|d].
    + exists [c]. split; [reflexivity|]. split; [cbn [peval]; ring|]. intros x NX. rewrite H, H'. cbn [pl] in P'. rewrite P' in *. subst e'. cbn [Qcpower peval]. field. exact NX.
    + destruct (I (S d) e' G' ltac:(lia) ltac:(lia) P' EG' GZ') as (r & Lr & R0 & R). exists (c :: r). split; [|split].
      * cbn [length]. rewrite Lr. replace (S (S (S d)) + 1)%nat with (S d + 1 + 1 * 2)%nat by lia. rewrite Nat.div_add by lia. lia.
      * cbn [peval]. ring.
      * intros x NX. cbn [peval]. rewrite <- R by exact NX. rewrite H, H'. rewrite (pow_S x (S (S d))), (pow_S x (S d)). pose proof (pow_nz x (S d) NX). field. auto.
Qed.

(** * The table of the modified midpoint rule, in units of the substep *)
Definition ga (i q : nat) : Qc := if Nat.odd (i + q) then (if (q =? 0)%nat then 1 else qn 2) else 0.
Definition gU (u : nat -> Qc) (i : nat) : Qc := qsum i (fun q => ga i q * u q).
Lemma odd_SS i q : Nat.odd (S (S i) + q) = Nat.odd (i + q). Proof. reflexivity. Qed.
Lemma gU_0 u : gU u 0 = 0. Proof. reflexivity. Qed.
Lemma gU_1 u : gU u 1 = u 0%nat. Proof. unfold gU, ga. cbn [qsum Nat.add Nat.odd Nat.even negb Nat.eqb]. ring. Qed.
Lemma gU_SS u i : gU u (S (S i)) = gU u i + qn 2 * u (S i).
Proof.
  unfold gU. cbn [qsum]. rewrite (qsum_ext i _ (fun q => ga i q * u q)) by (intros q _; unfold ga; rewrite odd_SS; reflexivity).
  unfold ga. rewrite !odd_SS. replace (i + i)%nat with (2 * i)%nat by lia. replace (i + S i)%nat with (S (2 * i)) by lia. rewrite Nat.odd_succ. rewrite Nat.odd_mul, Nat.even_mul. cbn [Nat.odd Nat.even negb andb orb Nat.eqb]. ring.
Qed.
Lemma fw_gU l i : fw ga (Node l) i = qprod l (fun c => gU (fw ga c) i).
Proof. apply fw_Node. Qed.
Lemma qn_add a b : qn (a + b) = qn a + qn b.
Proof. induction a as [|a I]; [cbn [Nat.add]; rewrite qn_0; ring|]. cbn [Nat.add]. rewrite !qn_S, I. ring. Qed.
(** the weights at even and odd stages *)
Definition both (d : nat) (c : Qc) (u : nat -> Qc) (P Q : Qc -> Qc) : Prop := pl d c P /\ parity d P /\ pl d c Q /\ parity d Q /\ forall j, u (2 * j)%nat = P (qn (2 * j)) /\ u (S (2 * j)) = Q (qn (S (2 * j))).
Lemma both_int d c u P Q : both d c u P Q -> exists P' Q', both (S d) (c / qn (S d)) (gU u) P' Q' /\ P' 0 = 0 /\ Q' 1 + Q' (- (1)) = 0.
Proof.
  intros (PP & EP & PQ & EQ & V). destruct (parity_inv d c Q PQ EQ) as (G & PG & EG & HG). destruct (parity_inv d c P PP EP) as (H & PH & EH & HH).
  assert (Q2 : qn 2 = 1 + 1) by (apply Qc_is_canon; reflexivity).
  assert (U0 : u 0%nat = P 0) by (pose proof (proj1 (V 0%nat)) as V0; change (2 * 0)%nat with 0%nat in V0; rewrite qn_0 in V0; exact V0).
  (* the constants: zero for odd degrees *)
  assert (A0 : sn (S d) * G 0 = G 0). { pose proof (EG 0) as E0. replace (- 0) with 0 in E0 by ring. symmetry. exact E0. }
  assert (HP : H 1 - sn (S d) * H 1 = qn 2 * P 0). { pose proof (HH 0) as E0. replace (0 + 1) with 1 in E0 by ring. replace (0 - 1) with (- (1)) in E0 by ring. rewrite EH in E0. exact E0. }
  set (b := P 0 - H 1).
  assert (B0 : sn (S d) * b = b).
  { unfold b. destruct (Nat.Even_or_Odd d) as [[k K]|[k K]].
    - assert (S1 : sn (S d) = - (1)). { rewrite sn_S. f_equal. rewrite K. replace (2 * k)%nat with (k + k)%nat by lia. rewrite sn_add. apply sn_sq. }
      assert (Z : P 0 - H 1 = 0). { rewrite S1, Q2 in HP. assert (X : (1 + 1) * (P 0 - H 1) = 0) by (transitivity ((1 + 1) * P 0 - (H 1 - - (1) * H 1)); [ring|]; rewrite HP; ring). destruct (Qcmult_integral _ _ X); [discriminate|assumption]. }
      rewrite Z. ring.
    - assert (S1 : sn (S d) = 1). { rewrite K, sn_S, Nat.add_1_r, sn_S. replace (2 * k)%nat with (k + k)%nat by lia. rewrite sn_add, sn_sq. ring. } rewrite S1. ring. }
  exists (fun x => G x + - G 0), (fun x => H x + b). split; [|split].
  - split; [|split; [|split; [|split]]].
    + eapply pl_ext; [| |exact (pl_add _ _ _ _ _ PG (pl_const d (- G 0)))]; [reflexivity|ring].
    + intros x. rewrite EG. transitivity (sn (S d) * G x - sn (S d) * G 0); [rewrite A0; ring|ring].
    + eapply pl_ext; [| |exact (pl_add _ _ _ _ _ PH (pl_const d b))]; [reflexivity|ring].
    + intros x. rewrite EH. transitivity (sn (S d) * H x + sn (S d) * b); [rewrite B0; reflexivity|ring].
    + intros j. induction j as [|j [I1 I2]].
      * change (2 * 0)%nat with 0%nat. rewrite gU_0, gU_1, qn_0, qn_1. split; [ring|]. rewrite U0. unfold b. ring.
      * replace (2 * S j)%nat with (S (S (2 * j))) by lia. rewrite !gU_SS, I1, I2. split.
        -- rewrite (proj2 (V j)). rewrite <- HG. rewrite !qn_S. replace (qn (2 * j) + 1 + 1) with (qn (2 * j) + 1 + 1) by ring. replace (qn (2 * j) + 1 - 1) with (qn (2 * j)) by ring. ring.
        -- replace (S (S (2 * j))) with (2 * S j)%nat by lia. rewrite (proj1 (V (S j))). rewrite <- HH. replace (2 * S j)%nat with (S (S (2 * j))) by lia. rewrite !qn_S. replace (qn (2 * j) + 1 + 1 - 1) with (qn (2 * j) + 1) by ring. ring.
  - ring.
  - rewrite EH. destruct (Nat.Even_or_Odd d) as [[k K]|[k K]].
    + assert (S1 : sn (S d) = - (1)). { rewrite sn_S. f_equal. rewrite K. replace (2 * k)%nat with (k + k)%nat by lia. rewrite sn_add. apply sn_sq. }
      rewrite S1 in *. assert (Z : b = 0). { assert (X : (1 + 1) * b = 0) by (transitivity (b - - (1) * b); [ring|rewrite B0; ring]). destruct (Qcmult_integral _ _ X); [discriminate|assumption]. } rewrite Z. ring.
    + assert (S1 : sn (S d) = 1). { rewrite K, sn_S, Nat.add_1_r, sn_S. replace (2 * k)%nat with (k + k)%nat by lia. rewrite sn_add, sn_sq. ring. }
      assert (Z : P 0 = 0) by (apply (parity_0 k); rewrite K, Nat.add_1_r in EP; exact EP). unfold b. rewrite S1, Z. ring.
Qed.
Lemma both_mult d e c c' u v P Q P' Q' : both d c u P Q -> both e c' v P' Q' -> both (d + e) (c * c') (fun i => u i * v i) (fun x => P x * P' x) (fun x => Q x * Q' x).
Proof.
  intros (A & B & C & D & E) (A' & B' & C' & D' & E'). split; [apply pl_mult; assumption|]. split; [intros x; rewrite B, B', sn_add; ring|]. split; [apply pl_mult; assumption|]. split; [intros x; rewrite D, D', sn_add; ring|].
  intros j. destruct (E j) as [E1 E2], (E' j) as [E1' E2']. rewrite E1, E2, E1', E2'. split; reflexivity.
Qed.
Lemma both_ext d c c' u u' P Q : (forall i, u i = u' i) -> c = c' -> both d c u P Q -> both d c' u' P Q.
Proof. intros E <- (A & B & C & D & V). repeat (split; [assumption|]). intros j. rewrite <- !E. apply V. Qed.
Lemma mid_weight : forall t, exists P Q, both (order t) (1 / qn (density t)) (gU (fw ga t)) P Q /\ P 0 = 0 /\ Q 1 + Q (- (1)) = 0.
Proof.
  intros t. induction t as [l I] using tree_ind2. pose proof (qden_nz (Node l)) as NZ. rewrite order_Node, density_Node in *. rewrite ExtFacts.qn_mul in *.
  assert (ND : qn (denl l) <> 0) by (intros E; rewrite E in NZ; apply NZ; ring). pose proof (qn_pos (S (ordl l)) ltac:(lia)) as NS.
  assert (G : exists P Q, both (ordl l) (1 / qn (denl l)) (fw ga (Node l)) P Q).
  { clear NZ NS. assert (G : exists P Q, both (ordl l) (1 / qn (denl l)) (fun i => qprod l (fun c => gU (fw ga c) i)) P Q).
    { revert ND. induction l as [|c l J]; intros ND.
      - exists (fun _ => 1), (fun _ => 1). assert (O : 1 / qn (denl []) = 1) by (change (denl []) with 1%nat; rewrite qn_1; field; discriminate). rewrite O. split; [intros x; reflexivity|]. split; [intros x; unfold sn; cbn; ring|]. split; [intros x; reflexivity|]. split; [intros x; unfold sn; cbn; ring|]. intros j. split; reflexivity.
      - change (ordl (c :: l)) with (order c + ordl l)%nat. change (denl (c :: l)) with (density c * denl l)%nat in *. rewrite ExtFacts.qn_mul in *.
        assert (N1 : qn (density c) <> 0) by (intros E; rewrite E in ND; apply ND; ring). assert (N2 : qn (denl l) <> 0) by (intros E; rewrite E in ND; apply ND; ring).
        destruct (I c (or_introl eq_refl)) as (P & Q & B & _). destruct (J (fun c' H => I c' (or_intror H)) N2) as (P' & Q' & B').
        eexists. eexists. eapply both_ext; [| |exact (both_mult _ _ _ _ _ _ _ _ _ _ B B')]; [intros i; rewrite qprod_cons; reflexivity|field; auto]. }
    destruct G as (P & Q & B). exists P, Q. eapply both_ext; [intros i; symmetry; apply fw_gU|reflexivity|exact B]. }
  destruct G as (P & Q & B). destruct (both_int _ _ _ _ _ B) as (P' & Q' & B' & Z). exists P', Q'. split; [|exact Z]. eapply both_ext; [reflexivity| |exact B']. field. auto.
Qed.
