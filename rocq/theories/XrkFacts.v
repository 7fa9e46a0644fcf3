(** XrkFacts.v - polynomials in the number of substeps, for the order of extrapolated Runge-Kutta and midpoint steps. *)
From Coq Require Import List Arith Bool ZArith QArith Qcanon Lia Field.
From Verif Require Import Base BaseFacts VecModel VOps RkModel RkSpec RkFacts StepSpec ExtSpec.
Import ListNotations.
Local Open Scope Qc_scope.

Lemma qn_0 : qn 0 = 0. Proof. apply Qc_is_canon. reflexivity. Qed.
Lemma qn_1 : qn 1 = 1. Proof. apply Qc_is_canon. reflexivity. Qed.
Lemma qn_S k : qn (S k) = qn k + 1.
Proof. apply Qc_is_canon. unfold qn. rewrite Nat2Z.inj_succ. unfold Z.succ. cbn [Qcplus this Q2Qc]. rewrite !Qred_correct. rewrite inject_Z_plus. reflexivity. Qed.
Lemma qn_pos k : (0 < k)%nat -> qn k <> 0.
Proof. intros H E. apply (f_equal this) in E. unfold qn in E. cbn [this Q2Qc] in E. assert (Q : inject_Z (Z.of_nat k) == 0) by (rewrite <- Qred_correct, E; reflexivity). unfold Qeq, inject_Z in Q. cbn in Q. lia. Qed.
Lemma pow_nz x d : x <> 0 -> x ^ d <> 0.
Proof. intros NZ. induction d as [|d I]; cbn [Qcpower]; [discriminate|]. intros E. destruct (Qcmult_integral _ _ E); contradiction. Qed.
Lemma pow_S x d : x ^ S d = x * x ^ d. Proof. reflexivity. Qed.
Lemma pow_add x d e : x ^ (d + e) = x ^ d * x ^ e.
Proof. induction d as [|d I]; cbn [Nat.add Qcpower]; [ring|rewrite I; ring]. Qed.

(** * Polynomials of degree at most d with coefficient c of the highest power, on the natural numbers *)
Fixpoint pol (d : nat) (c : Qc) (F : nat -> Qc) : Prop :=
  match d with
  | O => forall i, F i = c
  | S d' => exists c' G, pol d' c' G /\ forall i, F i = c * qn i ^ d + G i
  end.
Lemma pol_ext d c c' F G : (forall i, F i = G i) -> c = c' -> pol d c F -> pol d c' G.
Proof.
  intros E <-. destruct d as [|d]; cbn [pol].
  - intros H i. rewrite <- E. apply H.
  - intros (e & K & P & H). exists e, K. split; [exact P|]. intros i. rewrite <- E. apply H.
Qed.
Lemma pol_add d : forall c c' F G, pol d c F -> pol d c' G -> pol d (c + c') (fun i => F i + G i).
Proof.
  induction d as [|d I]; cbn [pol]; intros c c' F G.
  - intros H K i. rewrite H, K. reflexivity.
  - intros (e & K & P & H) (e' & K' & P' & H'). exists (e + e'), (fun i => K i + K' i). split; [apply I; assumption|]. intros i. rewrite H, H'. ring.
Qed.
Lemma pol_scale d a : forall c F, pol d c F -> pol d (a * c) (fun i => a * F i).
Proof.
  induction d as [|d I]; cbn [pol]; intros c F.
  - intros H i. rewrite H. reflexivity.
  - intros (e & K & P & H). exists (a * e), (fun i => a * K i). split; [apply I; assumption|]. intros i. rewrite H. ring.
Qed.
Lemma pol_zero d : pol d 0 (fun _ => 0).
Proof. induction d as [|d I]; cbn [pol]; [reflexivity|]. exists 0, (fun _ => 0). split; [exact I|]. intros i. ring. Qed.
Lemma pol_up d c F : pol d c F -> pol (S d) 0 F.
Proof. intros P. cbn [pol]. exists c, F. split; [exact P|]. intros i. ring. Qed.
Lemma pol_x d : forall c F, pol d c F -> pol (S d) c (fun i => qn i * F i).
Proof.
  induction d as [|d I]; intros c F.
  - cbn [pol]. intros H. exists 0, (fun _ => 0). split; [intros ?; reflexivity|]. intros i. rewrite H. cbn [Qcpower]. ring.
  - intros (e & K & P & H). exists e, (fun i => qn i * K i). split; [apply I; exact P|]. intros i. rewrite H. rewrite !pow_S. ring.
Qed.
Lemma pol_xk k d c F : pol d c F -> pol (k + d) c (fun i => qn i ^ k * F i).
Proof.
  intros P. induction k as [|k I]; cbn [Nat.add].
  - eapply pol_ext; [|reflexivity|exact P]. intros i. cbn [Qcpower]. ring.
  - eapply pol_ext; [|reflexivity|apply pol_x; exact I]. intros i. cbn beta. rewrite pow_S. ring.
Qed.
Lemma pol_mult d : forall e c c' F G, pol d c F -> pol e c' G -> pol (d + e) (c * c') (fun i => F i * G i).
Proof.
  induction d as [|d I]; intros e c c' F G P P'.
  - cbn [pol] in P. cbn [Nat.add]. eapply pol_ext; [|reflexivity|apply (pol_scale e c); exact P']. intros i. cbn beta. rewrite P. reflexivity.
  - destruct P as (k & K & P & H). cbn [Nat.add]. eapply pol_ext; [| |apply pol_add; [apply (pol_scale _ c), (pol_xk (S d)); exact P'|eapply pol_up; exact (I e k c' K G P P')]].
    + intros i. cbn beta. rewrite H. ring.
    + ring.
Qed.
(** sums *)
Lemma pol_power d : pol d 1 (fun i => qn i ^ d).
Proof. induction d as [|d I]; [intros i; reflexivity|]. apply (pol_x d 1) in I. exact I. Qed.
Lemma pol_diff m : pol m (qn (S m)) (fun i => qn (S i) ^ S m - qn i ^ S m).
Proof.
  induction m as [|m I].
  - intros i. cbn [Qcpower]. rewrite !qn_S, qn_0. ring.
  - assert (P : pol (S m) (qn (S m) + 0 + 1) (fun i => qn i * (qn (S i) ^ S m - qn i ^ S m) + (qn (S i) ^ S m - qn i ^ S m) + qn i ^ S m)).
    { apply pol_add; [apply pol_add; [apply pol_x; exact I|eapply pol_up; exact I]|]. exact (pol_power (S m)). }
    eapply pol_ext; [| |exact P].
    + intros i. cbn beta. rewrite (pow_S (qn (S i)) (S m)), (pow_S (qn i) (S m)), (qn_S i). ring.
    + rewrite (qn_S (S m)). ring.
Qed.
Lemma sum_diff k g : qsum k (fun i => g (S i) - g i) = g k - g 0%nat.
Proof. induction k as [|k I]; cbn [qsum]; [ring|rewrite I; ring]. Qed.
Lemma qsum_ext k f g : (forall i, (i < k)%nat -> f i = g i) -> qsum k f = qsum k g.
Proof. induction k as [|k I]; cbn [qsum]; intros H; [reflexivity|]. rewrite I by (intros; apply H; lia). rewrite H by lia. reflexivity. Qed.
Lemma qsum_add k f g : qsum k (fun i => f i + g i) = qsum k f + qsum k g.
Proof. induction k as [|k I]; cbn [qsum]; [ring|rewrite I; ring]. Qed.
Lemma qsum_scale k a f : qsum k (fun i => a * f i) = a * qsum k f.
Proof. induction k as [|k I]; cbn [qsum]; [ring|rewrite I; ring]. Qed.
Lemma qsum_zero k f : (forall i, (i < k)%nat -> f i = 0) -> qsum k f = 0.
Proof. induction k as [|k I]; cbn [qsum]; intros H; [reflexivity|]. rewrite I by (intros; apply H; lia). rewrite H by lia. ring. Qed.
Lemma qsum_split m k f : qsum (m + k) f = qsum m f + qsum k (fun i => f (m + i)%nat).
Proof. induction k as [|k I]; [rewrite Nat.add_0_r; cbn [qsum]; ring|]. rewrite Nat.add_succ_r. cbn [qsum]. rewrite I. ring. Qed.
Lemma pol_sum d : forall c F, pol d c F -> pol (S d) (c / qn (S d)) (fun k => qsum k F).
Proof.
  induction d as [|d I]; intros c F P.
  - cbn [pol] in P. exists 0, (fun _ => 0). split; [intros ?; reflexivity|]. intros k. cbn [Qcpower]. rewrite qn_1.
    induction k as [|k IK]; cbn [qsum]; [rewrite qn_0; ring|]. rewrite IK, P, qn_S. field. discriminate.
  - pose proof (pol_diff (S d)) as (l & L & PL & HL). destruct P as (e & G & PG & H). pose proof (qn_pos (S (S d)) ltac:(lia)) as NZ.
    set (b := c / qn (S (S d))). exists (- b * (l / qn (S d)) + e / qn (S d)), (fun k => - b * qsum k L + qsum k G). split.
    { apply pol_add; [apply pol_scale; apply I; exact PL|apply I; exact PG]. }
    intros k. rewrite (qsum_ext k F (fun i => b * ((qn (S i) ^ S (S d) - qn i ^ S (S d)) + (-(1)) * L i) + G i)).
    + rewrite qsum_add, qsum_scale, qsum_add, qsum_scale, (sum_diff k (fun i => qn i ^ S (S d))). rewrite qn_0. replace (0 ^ S (S d)) with 0 by (cbn [Qcpower]; ring). ring.
    + intros i _. rewrite H, HL. unfold b. field. exact NZ.
Qed.
(** division by the power *)
Lemma pol_div d : (0 < d)%nat -> forall c F, pol d c F -> F 0%nat = 0 -> exists r, length r = d /\ peval r 0 = c /\ forall k, (0 < k)%nat -> F k / qn k ^ d = peval r (1 / qn k).
Proof.
  intros Hd. induction d as [|d I]; [lia|]. intros c F (e & G & P & H) Z. rewrite H, qn_0 in Z. replace (0 ^ S d) with 0 in Z by (cbn [Qcpower]; ring).
  assert (GZ : G 0%nat = 0) by (rewrite <- Z; ring). destruct d as [|d].
  - exists [c]. split; [reflexivity|]. split; [cbn [peval]; ring|]. intros k Hk. rewrite H. cbn [pol] in P. rewrite P in *. subst e. cbn [Qcpower peval]. field. apply qn_pos. exact Hk.
  - destruct (I ltac:(lia) e G P GZ) as (r & Lr & R0 & R). exists (c :: r). split; [cbn [length]; lia|]. split; [cbn [peval]; ring|]. intros k Hk. cbn [peval]. rewrite <- R by exact Hk.
    rewrite H. rewrite (pow_S (qn k) (S d)). pose proof (qn_pos k Hk). pose proof (pow_nz (qn k) (S d) H0). field. auto.
Qed.
