(** MoreFacts4.v - Jacobians trimmed by the providers; which outputs are told. *)
From Coq Require Import List Arith Bool ZArith QArith Qcanon Lia.
From Verif Require Import Base BaseFacts SMap SpModel SpSpec MapModel JacModel JacSpec JacFacts JacFacts2 JacFacts3 VOps SpFacts RkModel StepModel UtilModel OutModel DrvModel DrvSpec DrvFacts DrvFacts2.
Import ListNotations.
Local Open Scope nat_scope.

Lemma fast_find (a : smat QcNum) p v : row_major (sdat a) -> (sfind (to_fast a) p = Some v <-> sfind a p = Some v).
Proof. intros RM. rewrite (sfind_In (to_fast a) p v RM), (sfind_In a p v RM). reflexivity. Qed.
Lemma affine_find n A b F (g : vmapping QcNum) (x0 : list Qc) (dx : Qc) : computes g F n n -> affine n A b F -> length x0 = n -> dx <> 0%Qc ->
  exists J log, computeJacobian (N:=QcNum) dx g x0 = Ret (J, log) /\ fast J = false /\ ssz J = (n, n) /\ row_major (sdat J) /\
    forall r c x, sfind J (r, c) = Some x <-> r < n /\ c < n /\ x = A r c /\ A r c <> 0%Qc.
Proof.
  intros CF AF L D. destruct (computeJacobian_ok (N:=QcNum) dx g F n x0 CF L) as (J & E & FJ & SZ & RM & V & V2). exists J. eexists. split; [exact E|]. split; [exact FJ|]. split; [exact SZ|]. split; [exact RM|].
  destruct (computeJacobian_affine n A b F g x0 dx CF AF L D) as (J' & E' & _ & H). rewrite E in E'. injection E' as <-. intros r c x. split.
  - intros S. destruct (le_lt_dec n r) as [Q|Q]; [rewrite V2 in S by auto; discriminate|]. destruct (le_lt_dec n c) as [Q'|Q']; [rewrite V2 in S by auto; discriminate|].
    destruct (H r c Q Q') as (H1 & H2). unfold get in H1. unfold hasIndex in H2. change (nT QcNum) with Qc in *. rewrite S in H1, H2. split; [exact Q|]. split; [exact Q'|]. split; [exact H1|]. apply H2. reflexivity.
  - intros (Hr & Hc & -> & NZ). destruct (H r c Hr Hc) as (H1 & H2). apply H2 in NZ. unfold get in H1. unfold hasIndex in NZ. change (nT QcNum) with Qc in *. destruct (sfind J (r, c)) as [y|]; [cbn in H1; rewrite H1; reflexivity|discriminate NZ].
Qed.
Theorem provider_width : forall n A b F (g : vmapping QcNum) (x0 : list Qc) (dx : Qc) (width : Z),
  computes g F n n -> affine n A b F -> length x0 = n -> dx <> 0%Qc -> (0 <= width < 2 ^ 31)%Z -> (Z.of_nat n < 2 ^ 31)%Z ->
  exists J, default_provider (N:=QcNum) dx (Some (trim_width (N:=QcNum) width)) g x0 = Ret J /\
    (forall p, exists p' log, sp_compute (N:=QcNum) dx (Some (trim_width (N:=QcNum) width)) g x0 p = Ret (p', log) /\ spJ p' = J) /\
    fast J = true /\ ssz J = (n, n) /\
    forall r c x, sfind J (r, c) = Some x <-> r < n /\ c < n /\ x = A r c /\ A r c <> 0%Qc /\ (width = 0%Z \/ (Z.abs (Z.of_nat r - Z.of_nat c) < width)%Z).
Proof.
  intros n A b F g x0 dx width CF AF L D HW HN. destruct (affine_find n A b F g x0 dx CF AF L D) as (J & log & E & FJ & SZ & RM & V).
  destruct (trim_width_ok (N:=QcNum) width J FJ RM HW) as (J' & ET & FJ' & SZ' & RM' & V' & _).
  { intros r c (x & K). apply (sfind_In J (r, c) x RM) in K. apply V in K. lia. }
  exists (to_fast J'). unfold default_provider, sp_compute, trim_opt. change (nT QcNum) with Qc in *. rewrite E. cbn [obind fst snd]. rewrite ET. cbn [obind]. split; [reflexivity|].
  split; [intros p; eexists; eexists; split; reflexivity|]. split; [reflexivity|]. split; [cbn [to_fast ssz]; congruence|]. intros r c x. rewrite (fast_find J' (r, c) x RM'), V', V. tauto.
Qed.
Theorem provider_threshold : forall n A b F (g : vmapping QcNum) (x0 : list Qc) (dx : Qc) (thr : Qc),
  computes g F n n -> affine n A b F -> length x0 = n -> dx <> 0%Qc ->
  exists J, default_provider (N:=QcNum) dx (Some (trim_threshold (N:=QcNum) thr)) g x0 = Ret J /\
    (forall p, exists p' log, sp_compute (N:=QcNum) dx (Some (trim_threshold (N:=QcNum) thr)) g x0 p = Ret (p', log) /\ spJ p' = J) /\
    fast J = true /\ ssz J = (n, n) /\
    forall r c x, sfind J (r, c) = Some x <-> r < n /\ c < n /\ x = A r c /\ A r c <> 0%Qc /\
      (r = c \/ forall i j, i < n -> j < n -> A i j <> 0%Qc -> (thr * Qcabs (A i j) <= Qcabs (A r c))%Qc).
Proof.
  intros n A b F g x0 dx thr CF AF L D. destruct (affine_find n A b F g x0 dx CF AF L D) as (J & log & E & FJ & SZ & RM & V).
  destruct (trim_threshold_all thr J FJ RM) as (J' & ET & FJ' & SZ' & RM' & V' & _).
  exists (to_fast J'). unfold default_provider, sp_compute, trim_opt. change (nT QcNum) with Qc in *. rewrite E. cbn [obind fst snd]. rewrite ET. cbn [obind]. split; [reflexivity|].
  split; [intros p; eexists; eexists; split; reflexivity|]. split; [reflexivity|]. split; [cbn [to_fast ssz]; congruence|]. intros r c x. rewrite (fast_find J' (r, c) x RM'), V', V. split.
  - intros ((Hr & Hc & -> & NZ) & K). split; [exact Hr|]. split; [exact Hc|]. split; [reflexivity|]. split; [exact NZ|]. destruct K as [K|K]; [left; exact K|right]. intros i j Hi Hj NZ'. apply (K (i, j)). apply V. auto.
  - intros (Hr & Hc & -> & NZ & K). split; [auto|]. destruct K as [K|K]; [left; exact K|right]. intros [i j] y S. apply V in S. destruct S as (Hi & Hj & -> & NZ'). apply K; assumption.
Qed.
(** the output options told about a run are those that are set *)
Theorem outputs_set : forall (S : Type) (sv : odesolver S) (stats con file : bool) (D : Qc) (fuel : nat) (s s' : S) (e : list oevent), solveOde sv true (collect stats con file) D fuel s = Some (s', e, Ret tt) ->
  befores e = afters e /\
  (In 0 (befores e) <-> stats = true) /\ (In 1 (befores e) <-> con = true) /\ (In 2 (befores e) <-> file = true) /\
  (forall i j, i < j -> j < length (befores e) -> nth i (befores e) 0 < nth j (befores e) 0).
Proof.
  intros S sv stats con file D fuel s s' e E. assert (B : befores e = collect stats con file /\ afters e = collect stats con file).
  { destruct (outputs_ok sv (collect stats con file) D fuel s s' e E) as (l & _ & _ & B1 & _ & B2). auto. }
  destruct B as (B1 & B2). rewrite B1, B2. split; [reflexivity|]. destruct stats, con, file; cbn; repeat split; intros; try lia; try discriminate; auto; repeat match goal with H : _ \/ _ |- _ => destruct H | H : False |- _ => destruct H end; try discriminate; try reflexivity;
    repeat match goal with j : nat |- _ => destruct j as [|j]; try lia end.
Qed.
