(** ImpFacts.v - proofs about the step mapping of the alpha method. *)
From Coq Require Import List Arith Bool ZArith QArith Qcanon Lia Qfield Permutation.
From Verif Require Import Base BaseFacts VecModel VOps MapModel NewtModel NewtFacts RkModel RkSpec RkFacts ExtFacts ExtFacts5 ImpModel ImpSpec.
Import ListNotations.
Local Open Scope nat_scope.

Section Cache.
Context {N : Num} (nd nf : nat) (f : nT N -> list (nT N) -> Outcome (list (nT N))).
(** What the cache holds, if valid, is what would be computed now. *)
Definition coherent (m : emap N) : Prop := em_valid m = true ->
  exists k, f (em_t m) (em_x m) = Ret k /\ em_f0 m = lscale k (nmul N (nopp N (em_h m)) (nsub N (n1 N) (em_alpha m))).
Lemma do_coherent m c : coherent m -> coherent (em_do f m c).
Proof.
  intros C. destruct c as [t x|h|a|x]; simpl; try (intros H; discriminate H).
  unfold em_prepare. destruct (em_valid m) eqn:V; [exact C|]. destruct (f (em_t m) (em_x m)) as [k| |] eqn:E; cbn [obind]; try (intros H; congruence).
  intros _. exists k. split; [exact E|reflexivity].
Qed.
Lemma hist_coherent l : forall m, coherent m -> coherent (em_hist f l m).
Proof. induction l as [|c l I]; intros m C; simpl; [exact C|]. apply I, do_coherent, C. Qed.
Lemma value_coherent m x : coherent m -> em_value nd nf f x m = em_value nd nf f x (em_uncached m).
Proof.
  intros C. unfold em_value, em_map, em_prepare, em_uncached. destruct m as [al h t xx f0 v]. cbn [em_valid em_t em_x em_h em_alpha em_f0] in *. destruct v; [|reflexivity].
  destruct (C eq_refl) as [k [E F]]. cbn [em_valid em_t em_x em_h em_alpha em_f0] in *. subst f0. rewrite E. reflexivity.
Qed.
Lemma cache l m0 x : em_valid m0 = false -> em_value nd nf f x (em_hist f l m0) = em_value nd nf f x (em_uncached (em_hist f l m0)).
Proof. intros V. apply value_coherent, hist_coherent. intros H. congruence. Qed.
End Cache.

Section Shape.
Context {N : Num}.
Notation T := (nT N).
Notation vec := (list T).
Lemma lblk_ok from count (v : vec) : from + count <= length v -> lblk from count v = Ret (firstn count (skipn from v)).
Proof. intros H. unfold lblk. apply Nat.leb_le in H. rewrite H. reflexivity. Qed.
End Shape.

Ltac ql := change (nT QcNum) with Qc in *; lia.
Section Exact.
Notation vec := (list Qc).
Lemma lzip_cmp (op : Qc -> Qc -> Qc) (a b : vec) : length a <= length b ->
  exists r : vec, lzip (N:=QcNum) op a b = Ret r /\ length r = length a /\ forall j, j < length a -> cmp_ r j = op (cmp_ a j) (cmp_ b j).
Proof.
  intros H. eexists. split; [exact (lzip_ok (N:=QcNum) op a b H)|]. split; [rewrite map_length, seq_length; reflexivity|].
  intros j J. unfold cmp_. rewrite nth_map_seq by exact J. reflexivity.
Qed.
Lemma ladd_cmp (a b : vec) : length a <= length b ->
  exists r : vec, ladd (N:=QcNum) a b = Ret r /\ length r = length a /\ forall j, j < length a -> cmp_ r j = (cmp_ a j + cmp_ b j)%Qc.
Proof. exact (lzip_cmp Qcplus a b). Qed.
Lemma lsub_cmp (a b : vec) : length a <= length b ->
  exists r : vec, lsub (N:=QcNum) a b = Ret r /\ length r = length a /\ forall j, j < length a -> cmp_ r j = (cmp_ a j - cmp_ b j)%Qc.
Proof. exact (lzip_cmp Qcminus a b). Qed.
Lemma cmp_scale (v : vec) k j : cmp_ (lscale (N:=QcNum) v k) j = (cmp_ v j * k)%Qc.
Proof.
  destruct (lt_dec j (length v)) as [H|H]; [apply cmp_lscale; exact H|]. unfold cmp_. rewrite (nth_overflow v) by lia.
  rewrite nth_overflow; [change (0 = 0 * k)%Qc; ring|]. apply Nat.le_trans with (length v); [apply Nat.eq_le_incl, (lscale_length (N:=QcNum) v k)|lia].
Qed.
Lemma nth_skipn' {A} (l : list A) k j d : nth j (skipn k l) d = nth (k + j) l d.
Proof. revert k. induction l as [|x l I]; intros [|k]; cbn; auto. destruct j; reflexivity. Qed.
Lemma cmp_skip (v : vec) k j : cmp_ (skipn k v) j = cmp_ v (k + j). Proof. apply nth_skipn'. Qed.
Lemma nth_firstn' {A} (l : list A) k j d : j < k -> nth j (firstn k l) d = nth j l d.
Proof. revert k j. induction l as [|x l I]; intros [|k] [|j] H; cbn; auto; try lia. apply I. lia. Qed.
Lemma length_scale (v : vec) k : @length Qc (lscale (N:=QcNum) v k) = length v. Proof. apply map_length. Qed.

Variables (nd nf : nat).
Let n := 2 * nd + nf.
Lemma expand_ok (m : emap QcNum) (x : vec) : length (em_x m : vec) = n -> length x = nd + nf ->
  exists X1 : vec, em_expand nd nf m x = Ret X1 /\ length X1 = n /\ skipn nd X1 = x /\
    forall i, i < nd -> cmp_ X1 i = (cmp_ (em_x m) i + em_h m * ((1 - em_alpha m) * cmp_ (em_x m) (nd + i)%nat + em_alpha m * cmp_ X1 (nd + i)%nat))%Qc.
Proof.
  intros L0 L. unfold em_expand. change (nT QcNum) with Qc in *. rewrite L, Nat.eqb_refl. cbn [negb].
  rewrite lblk_ok by (change (nT QcNum) with Qc; unfold n in L0; ql). cbn [obind].
  assert (LF : @length Qc (firstn nd (skipn 0 (em_x m))) = nd) by (rewrite firstn_length, skipn_length; unfold n in L0; ql).
  match goal with |- context[ladd ?a ?b] => destruct (ladd_cmp a b) as (u1 & E1 & L1 & V1); [|rewrite E1] end.
  { rewrite LF, length_scale, skipn_length. unfold n in L0. ql. }
  cbn [obind]. rewrite LF in L1, V1.
  match goal with |- context[ladd ?a ?b] => destruct (ladd_cmp a b) as (u2 & E2 & L2 & V2); [|rewrite E2] end.
  { rewrite L1, length_scale. ql. }
  cbn [obind]. rewrite L1 in L2, V2. exists (u2 ++ x). split; [reflexivity|]. split; [rewrite app_length, L2, L; unfold n; ql|].
  split; [rewrite skipn_app, L2, Nat.sub_diag, skipn_all2 by ql; reflexivity|].
  intros i Hi. assert (EX : cmp_ (u2 ++ x) (nd + i) = cmp_ x i).
  { unfold cmp_. rewrite app_nth2 by ql. f_equal. ql. }
  rewrite EX. unfold cmp_ at 1. rewrite app_nth1 by ql. fold (cmp_ u2 i). rewrite V2, V1 by exact Hi. rewrite !cmp_scale, cmp_skip.
  unfold cmp_ at 1. rewrite nth_firstn' by exact Hi. cbn [skipn]. unfold cmp_. cbn [nmul nsub n1 QcNum]. ring.
Qed.

(** The value of the mapping. *)
Lemma map_ok f (m : emap QcNum) (x X1 F0 F1 : vec) : length (em_x m : vec) = n -> length x = nd + nf -> em_valid m = false ->
  em_expand nd nf m x = Ret X1 -> f (em_t m) (em_x m) = Ret F0 -> f (em_t m + em_h m)%Qc X1 = Ret F1 -> length F0 = n -> length F1 = n ->
  exists (d : vec) (m' : emap QcNum), em_map nd nf f x m = Ret (d, m') /\ length d = nd + nf /\
    forall i, i < nd + nf -> cmp_ d i = (cmp_ X1 (nd + i)%nat - cmp_ (em_x m) (nd + i)%nat
      - em_h m * ((1 - em_alpha m) * cmp_ F0 (nd + i)%nat + em_alpha m * cmp_ F1 (nd + i)%nat))%Qc.
Proof.
  intros L0 L V E EF0 EF1 LF0 LF1. destruct (expand_ok m x L0 L) as (X & EX & LX & SX & _). change (nT QcNum) with Qc in *. rewrite EX in E. inversion E; subst X1. clear E.
  unfold em_map, em_prepare. rewrite V, EF0. cbn [obind]. unfold em_expand in *. cbn [em_t em_x em_h em_alpha em_f0]. rewrite EX. cbn [obind].
  change (nadd QcNum (em_t m) (em_h m)) with (em_t m + em_h m)%Qc. rewrite EF1. cbn [obind].
  match goal with |- context[lsub ?a ?b] => destruct (lsub_cmp a b) as (d1 & E1 & L1 & V1); [|rewrite E1] end.
  { rewrite skipn_length. unfold n in L0. ql. }
  cbn [obind].
  match goal with |- context[ladd ?a ?b] => destruct (ladd_cmp a b) as (d2 & E2 & L2 & V2); [|rewrite E2] end.
  { rewrite skipn_length, length_scale. unfold n in *. ql. }
  cbn [obind].
  match goal with |- context[ladd ?a ?b] => destruct (ladd_cmp a b) as (d3 & E3 & L3 & V3); [|rewrite E3] end.
  { rewrite length_scale, skipn_length. unfold n in *. ql. }
  cbn [obind]. eexists d3, _. split; [reflexivity|]. split; [congruence|].
  intros i Hi. rewrite V3, V2, V1 by congruence. rewrite !cmp_scale, !cmp_skip, cmp_scale, <- SX, cmp_skip.
  cbn [nmul nsub n1 nopp QcNum]. ring.
Qed.
Lemma all_zero_iff (d : vec) k : length d = k -> (all_zero d <-> forall i, i < k -> cmp_ d i = 0%Qc).
Proof.
  intros L. split.
  - intros H i Hi. apply H. apply nth_In. ql.
  - intros H x I. destruct (In_nth d x 0%Qc I) as [i [Hi E]]. rewrite <- E. apply H. ql.
Qed.
Lemma root f (m : emap QcNum) (x X1 F0 F1 : vec) : length (em_x m : vec) = n -> length x = nd + nf -> em_valid m = false ->
  em_expand nd nf m x = Ret X1 -> f (em_t m) (em_x m) = Ret F0 -> f (em_t m + em_h m)%Qc X1 = Ret F1 -> length F0 = n -> length F1 = n ->
  exists (d : vec) (m' : emap QcNum), em_map nd nf f x m = Ret (d, m') /\ (all_zero d <-> alpha_update nd nf (em_h m) (em_alpha m) (em_x m) F0 X1 F1).
Proof.
  intros L0 L V E EF0 EF1 LF0 LF1. destruct (map_ok f m x X1 F0 F1 L0 L V E EF0 EF1 LF0 LF1) as (d & m' & ED & LD & VD).
  destruct (expand_ok m x L0 L) as (X & EX & LX & SX & PX). change (nT QcNum) with Qc in *. rewrite EX in E. inversion E; subst X1. clear E.
  exists d, m'. split; [exact ED|]. rewrite (all_zero_iff d (nd + nf) LD). split.
  - intros Z. split; [exact LX|]. split; [exact PX|]. intros i Hi. specialize (VD i Hi). rewrite (Z i Hi) in VD.
    match goal with |- ?a = (?b + ?c)%Qc => transitivity ((a - b - c) + (b + c))%Qc; [ring|]; rewrite <- VD; ring end.
  - intros (_ & _ & U) i Hi. rewrite (VD i Hi), (U i Hi). ring.
Qed.
(** The two states. *)
Lemma eqn_expand (m : emap QcNum) (x X1 : vec) : length (em_x m : vec) = n -> em_expand nd nf m x = Ret X1 -> em_eqn nd nf X1 = Ret x.
Proof.
  intros L0 E. assert (L : length x = nd + nf). { unfold em_expand in E. change (nT QcNum) with Qc in *. destruct (length x =? nd + nf) eqn:Q; [apply Nat.eqb_eq in Q; exact Q|discriminate E]. }
  destruct (expand_ok m x L0 L) as (X & EX & LX & SX & PX). change (nT QcNum) with Qc in *. rewrite EX in E. inversion E; subst X1. unfold em_eqn.
  rewrite lblk_ok by (unfold n in *; ql). change (nT QcNum) with Qc. f_equal. transitivity (firstn (nd + nf) x); [f_equal; exact SX|apply firstn_all2; ql].
Qed.
Lemma expand_eqn (m : emap QcNum) (X1 : vec) : length (em_x m : vec) = n -> length X1 = n ->
  (forall i, i < nd -> cmp_ X1 i = (cmp_ (em_x m) i + em_h m * ((1 - em_alpha m) * cmp_ (em_x m) (nd + i)%nat + em_alpha m * cmp_ X1 (nd + i)%nat))%Qc) ->
  exists x : vec, em_eqn nd nf X1 = Ret x /\ length x = nd + nf /\ em_expand nd nf m x = Ret X1.
Proof.
  intros L0 L1 P. unfold em_eqn. rewrite lblk_ok by (unfold n in *; ql).
  assert (EX : firstn (nd + nf) (skipn nd X1) = skipn nd X1) by (apply firstn_all2; rewrite skipn_length, L1; unfold n; ql).
  change (nT QcNum) with Qc in *. rewrite EX. assert (LS : length (skipn nd X1) = nd + nf) by (rewrite skipn_length, L1; unfold n; ql).
  exists (skipn nd X1). split; [reflexivity|]. split; [exact LS|].
  destruct (expand_ok m (skipn nd X1) L0 LS) as (X & E & LX & SX & PX). change (nT QcNum) with Qc in *. rewrite E. f_equal.
  apply (list_ext 0%Qc); [congruence|]. intros i Hi. change (cmp_ X i = cmp_ X1 i).
  assert (TL : forall j, cmp_ X (nd + j) = cmp_ X1 (nd + j)) by (intros j; rewrite <- !cmp_skip, SX; reflexivity).
  destruct (lt_dec i nd) as [Q|Q].
  - rewrite PX, P, TL by exact Q. reflexivity.
  - replace i with (nd + (i - nd))%nat by ql. apply TL.
Qed.

(** Second order systems: the whole state. *)
Lemma update_full f h al (X0 X1 F0 F1 : vec) t0 t1 : second_order nd nf f -> length X0 = n -> length X1 = n -> f t0 X0 = Ret F0 -> f t1 X1 = Ret F1 ->
  (alpha_update nd nf h al X0 F0 X1 F1 <-> forall j, j < n -> cmp_ X1 j = (cmp_ X0 j + h * ((1 - al) * cmp_ F0 j + al * cmp_ F1 j))%Qc).
Proof.
  intros SO L0 L1 E0 E1. destruct (SO t0 X0 L0) as (y0 & Q0 & _ & V0). destruct (SO t1 X1 L1) as (y1 & Q1 & _ & V1).
  rewrite Q0 in E0. rewrite Q1 in E1. inversion E0; inversion E1; subst y0 y1. clear E0 E1. split.
  - intros (_ & A & B) j Hj. destruct (lt_dec j nd) as [Q|Q].
    + rewrite V0, V1 by exact Q. exact (A j Q).
    + replace j with (nd + (j - nd))%nat by ql. apply B. unfold n in Hj. ql.
  - intros H. split; [exact L1|]. split.
    + intros i Hi. rewrite <- V0, <- V1 by exact Hi. apply H. unfold n. ql.
    + intros i Hi. apply H. unfold n. ql.
Qed.
(** What the step mapping of a second order system is: defined everywhere, zero exactly at the alpha method's update of the whole state. *)
Lemma root_full f (m : emap QcNum) (x : vec) : second_order nd nf f -> length (em_x m : vec) = n -> length x = nd + nf -> em_valid m = false ->
  exists (X1 F0 F1 d : vec) (m' : emap QcNum), em_expand nd nf m x = Ret X1 /\ f (em_t m) (em_x m) = Ret F0 /\ f (em_t m + em_h m)%Qc X1 = Ret F1 /\
    em_map nd nf f x m = Ret (d, m') /\
    (all_zero d <-> forall j, j < n -> cmp_ X1 j = (cmp_ (em_x m) j + em_h m * ((1 - em_alpha m) * cmp_ F0 j + em_alpha m * cmp_ F1 j))%Qc).
Proof.
  intros SO L0 L V. destruct (expand_ok m x L0 L) as (X & EX & LX & SX & PX). change (nT QcNum) with Qc in *.
  destruct (SO (em_t m) (em_x m) L0) as (F0 & E0 & LF0 & _). destruct (SO (em_t m + em_h m)%Qc X LX) as (F1 & E1 & LF1 & _).
  destruct (root f m x X F0 F1 L0 L V EX E0 E1 LF0 LF1) as (d & m' & ED & Z). exists X, F0, F1, d, m'.
  split; [exact EX|]. split; [exact E0|]. split; [exact E1|]. split; [exact ED|]. rewrite Z. exact (update_full f _ _ _ _ _ _ _ _ SO L0 LX E0 E1).
Qed.
(** alpha = 0 *)
Lemma explicit f (m : emap QcNum) (F0 : vec) : second_order nd nf f -> length (em_x m : vec) = n -> em_valid m = false -> em_alpha m = 0%Qc ->
  f (em_t m) (em_x m) = Ret F0 ->
  exists (x X1 : vec), length x = nd + nf /\ em_expand nd nf m x = Ret X1 /\ (forall j, j < n -> cmp_ X1 j = (cmp_ (em_x m) j + em_h m * cmp_ F0 j)%Qc) /\
    (exists d m', em_map nd nf f x m = Ret (d, m') /\ all_zero d) /\
    (forall x' d m', length x' = nd + nf -> em_map nd nf f x' m = Ret (d, m') -> all_zero d -> x' = x).
Proof.
  intros SO L0 V A EF0. set (X := map (fun j => (cmp_ (em_x m) j + em_h m * cmp_ F0 j)%Qc) (seq 0 n)).
  assert (LX : length X = n) by (unfold X; rewrite map_length, seq_length; reflexivity).
  assert (CX : forall j, j < n -> cmp_ X j = (cmp_ (em_x m) j + em_h m * cmp_ F0 j)%Qc) by (intros j Hj; unfold X, cmp_ at 1; rewrite nth_map_seq by exact Hj; reflexivity).
  change (nT QcNum) with Qc in *. destruct (SO (em_t m) (em_x m) L0) as (y0 & Q0 & _ & V0). rewrite Q0 in EF0. inversion EF0; subst y0. clear EF0.
  destruct (expand_eqn m X L0 LX) as (x & EE & L & EX).
  { intros i Hi. rewrite CX by (unfold n; ql). rewrite V0 by exact Hi. rewrite A. ring. }
  exists x, X. split; [exact L|]. split; [exact EX|]. split; [exact CX|]. split.
  - destruct (root_full f m x SO L0 L V) as (X1 & G0 & F1 & d & m' & E1 & E2 & E3 & E4 & E5). exists d, m'. split; [exact E4|]. apply E5.
    rewrite EX in E1. inversion E1; subst X1. rewrite Q0 in E2. inversion E2; subst G0. intros j Hj. rewrite CX by exact Hj. rewrite A. ring.
  - intros x' d m' L' ED Z. destruct (root_full f m x' SO L0 L' V) as (X1 & G0 & F1 & d' & m1 & E1 & E2 & E3 & E4 & E5).
    rewrite ED in E4. inversion E4; subst d' m1. rewrite Q0 in E2. inversion E2; subst G0. pose proof (proj1 E5 Z) as Z1.
    assert (EQ : X1 = X).
    { destruct (expand_ok m x' L0 L') as (X1' & EX1 & LX1 & _). change (nT QcNum) with Qc in *. rewrite E1 in EX1. inversion EX1; subst X1'.
      apply (list_ext 0%Qc); [congruence|]. intros j Hj. change (cmp_ X1 j = cmp_ X j). rewrite Z1, CX by ql. rewrite A. ring. }
    subst X1. pose proof (eqn_expand m x' X L0 E1) as Q1. pose proof (eqn_expand m x X L0 EX) as Q2. congruence.
Qed.
End Exact.

(** Stability on linear systems *)
Section Stab.
Local Open Scope Qc_scope.
Lemma stab_ident (a b h al u0 v0 u1 v1 : Qc) :
  u1 = u0 + h * ((1 - al) * (a * u0 - b * v0) + al * (a * u1 - b * v1)) ->
  v1 = v0 + h * ((1 - al) * (b * u0 + a * v0) + al * (b * u1 + a * v1)) ->
  ((1 - h * al * a) * (1 - h * al * a) + h * al * b * (h * al * b)) * (u1 * u1 + v1 * v1)
  = ((1 + h * (1 - al) * a) * (1 + h * (1 - al) * a) + h * (1 - al) * b * (h * (1 - al) * b)) * (u0 * u0 + v0 * v0).
Proof.
  intros U V.
  assert (U' : (1 - h * al * a) * u1 + h * al * b * v1 = (1 + h * (1 - al) * a) * u0 - h * (1 - al) * b * v0).
  { transitivity (u1 - h * (al * (a * u1 - b * v1))); [ring|]. rewrite U at 1. ring. }
  assert (V' : (1 - h * al * a) * v1 - h * al * b * u1 = (1 + h * (1 - al) * a) * v0 + h * (1 - al) * b * u0).
  { transitivity (v1 - h * (al * (b * u1 + a * v1))); [ring|]. rewrite V at 1. ring. }
  transitivity (((1 - h * al * a) * u1 + h * al * b * v1) * ((1 - h * al * a) * u1 + h * al * b * v1)
     + ((1 - h * al * a) * v1 - h * al * b * u1) * ((1 - h * al * a) * v1 - h * al * b * u1)); [ring|]. rewrite U', V'. ring.
Qed.
End Stab.
