(** BaseFacts.v - lemmas about the common vocabulary. *)
From Coq Require Import List Arith Lia ZArith QArith Qcanon Bool Lqa.
Require Import Verif.Base.
Import ListNotations.

(** ** Qc helpers *)
Lemma this_plus a b : (this (a + b)%Qc == this a + this b)%Q.
Proof. apply Qred_correct. Qed.
Lemma this_mult a b : (this (a * b)%Qc == this a * this b)%Q.
Proof. apply Qred_correct. Qed.
Lemma this_opp a : (this (- a)%Qc == - this a)%Q.
Proof. apply Qred_correct. Qed.
Lemma this_minus a b : (this (a - b)%Qc == this a - this b)%Q.
Proof. unfold Qcminus. rewrite this_plus, this_opp. reflexivity. Qed.
Lemma this_inv a : (this (/ a)%Qc == / this a)%Q.
Proof. apply Qred_correct. Qed.
Lemma this_div a b : (this (a / b)%Qc == this a / this b)%Q.
Proof. unfold Qcdiv. rewrite this_mult, this_inv. reflexivity. Qed.
Lemma this_Q2Qc q : (this (Q2Qc q) == q)%Q.
Proof. apply Qred_correct. Qed.
Lemma Qc_eq_this a b : a = b <-> (this a == this b)%Q.
Proof. split; [intros ->; reflexivity | apply Qc_is_canon]. Qed.

Ltac qthis H :=
  repeat (progress (rewrite ?this_plus, ?this_mult, ?this_minus, ?this_opp, ?this_div, ?this_inv, ?this_Q2Qc in H)).
Ltac qthis_goal :=
  repeat (progress (rewrite ?this_plus, ?this_mult, ?this_minus, ?this_opp, ?this_div, ?this_inv, ?this_Q2Qc)).

Ltac qc2q :=
  unfold qc, Qcle, Qclt in *;
  repeat match goal with
  | H : @eq Qc _ _ |- _ => apply Qc_eq_this in H
  | H : ~ (@eq Qc _ _) |- _ => rewrite Qc_eq_this in H
  end;
  try match goal with
  | |- @eq Qc _ _ => apply Qc_is_canon
  | |- ~ (@eq Qc _ _) => rewrite Qc_eq_this
  end;
  repeat match goal with
  | H : context [this (_ + _)%Qc] |- _ => progress qthis H
  | H : context [this (_ * _)%Qc] |- _ => progress qthis H
  | H : context [this (_ - _)%Qc] |- _ => progress qthis H
  | H : context [this (- _)%Qc] |- _ => progress qthis H
  | H : context [this (_ / _)%Qc] |- _ => progress qthis H
  | H : context [this (/ _)%Qc] |- _ => progress qthis H
  | H : context [this (Q2Qc _)] |- _ => progress qthis H
  end;
  qthis_goal.

Ltac qclra := qc2q; lra.
Ltac qcnra := qc2q; nra.

Lemma Qcltb_lt a b : Qcltb a b = true <-> (a < b)%Qc.
Proof.
  unfold Qcltb. rewrite Qclt_alt. destruct (a ?= b)%Qc; split; congruence.
Qed.
Lemma Qcltb_ge a b : Qcltb a b = false <-> (b <= a)%Qc.
Proof.
  unfold Qcltb. unfold Qccompare, Qcle. split; intro H.
  - destruct (this a ?= this b)%Q eqn:E; try discriminate.
    + apply Qeq_alt in E. rewrite E. apply Qle_refl.
    + apply Qgt_alt in E. apply Qlt_le_weak; auto.
  - destruct (this a ?= this b)%Q eqn:E; auto.
    apply Qlt_alt in E. exfalso. eapply Qlt_not_le; eauto.
Qed.
Lemma Qcleb_le a b : Qcleb a b = true <-> (a <= b)%Qc.
Proof.
  unfold Qcleb, Qccompare, Qcle. rewrite Qle_alt.
  destruct (this a ?= this b)%Q; split; congruence.
Qed.
Lemma Qcleb_gt a b : Qcleb a b = false <-> (b < a)%Qc.
Proof.
  unfold Qcleb, Qccompare, Qclt. rewrite Qgt_alt.
  destruct (this a ?= this b)%Q; split; congruence.
Qed.
Lemma Qceqb_eq a b : Qceqb a b = true <-> a = b.
Proof.
  unfold Qceqb, Qccompare. rewrite Qc_eq_this, Qeq_alt.
  destruct (this a ?= this b)%Q; split; congruence.
Qed.
Lemma Qceqb_neq a b : Qceqb a b = false <-> a <> b.
Proof.
  rewrite <- Qceqb_eq. destruct (Qceqb a b); split; congruence.
Qed.
Lemma Qceqb_refl a : Qceqb a a = true.
Proof. apply Qceqb_eq; reflexivity. Qed.

Ltac qcase a b :=
  let E := fresh "E" in
  match goal with
  | |- context [Qcltb a b] => destruct (Qcltb a b) eqn:E; [apply Qcltb_lt in E | apply Qcltb_ge in E]
  | |- context [Qcleb a b] => destruct (Qcleb a b) eqn:E; [apply Qcleb_le in E | apply Qcleb_gt in E]
  | |- context [Qceqb a b] => destruct (Qceqb a b) eqn:E; [apply Qceqb_eq in E | apply Qceqb_neq in E]
  end.

Lemma Qcabs_nonneg a : (0 <= Qcabs a)%Qc.
Proof. unfold Qcabs. qcase a 0%Qc; qclra. Qed.
Lemma Qcabs_zero_iff a : Qcabs a = 0%Qc <-> a = 0%Qc.
Proof. unfold Qcabs. qcase a 0%Qc; split; intro; qclra. Qed.
Lemma Qcabs_pos a : (0 <= a)%Qc -> Qcabs a = a.
Proof. intro H. unfold Qcabs. qcase a 0%Qc; auto. qclra. Qed.
Lemma Qcabs_neg a : (a <= 0)%Qc -> Qcabs a = (- a)%Qc.
Proof. intro H. unfold Qcabs. qcase a 0%Qc; auto. qclra. Qed.
Lemma Qcabs_triangle a b : (Qcabs (a + b) <= Qcabs a + Qcabs b)%Qc.
Proof. unfold Qcabs. qcase a 0%Qc; qcase b 0%Qc; qcase (a + b)%Qc 0%Qc; qclra. Qed.
Lemma Qcmaxb_l a b : (a <= Qcmaxb a b)%Qc.
Proof. unfold Qcmaxb. qcase a b; qclra. Qed.
Lemma Qcmaxb_r a b : (b <= Qcmaxb a b)%Qc.
Proof. unfold Qcmaxb. qcase a b; qclra. Qed.
Lemma Qcmaxb_lub a b c : (a <= c)%Qc -> (b <= c)%Qc -> (Qcmaxb a b <= c)%Qc.
Proof. intros. unfold Qcmaxb. qcase a b; auto. Qed.
Lemma Qcmaxb_or a b : Qcmaxb a b = a \/ Qcmaxb a b = b.
Proof. unfold Qcmaxb. destruct (Qcltb a b); auto. Qed.
Lemma Qc_eq_dec' (a b : Qc) : {a = b} + {a <> b}.
Proof. apply Qc_eq_dec. Defined.

Lemma Qcmult_eq0 a b : (a * b = 0 -> a = 0 \/ b = 0)%Qc.
Proof. apply Qcmult_integral. Qed.
Lemma Qcmult_neq0 a b : (a <> 0 -> b <> 0 -> a * b <> 0)%Qc.
Proof. intros Ha Hb H. apply Qcmult_eq0 in H. tauto. Qed.

(** ** upd / nth *)
Lemma upd_length {A} (l : list A) i v : length (upd l i v) = length l.
Proof. revert i; induction l; destruct i; simpl; auto. Qed.

Lemma nth_upd {A} (l : list A) i j v d :
  nth j (upd l i v) d = if Nat.eqb j i then (if Nat.ltb i (length l) then v else d) else nth j l d.
Proof.
  revert i j; induction l; intros i j.
  - simpl. destruct i, j; simpl; auto; destruct (j =? i)%nat; auto.
  - destruct i, j; simpl; auto. rewrite IHl. destruct (j =? i)%nat; auto.
Qed.

Lemma nth_upd_eq {A} (l : list A) i v d : (i < length l)%nat -> nth i (upd l i v) d = v.
Proof.
  intro H. rewrite nth_upd, Nat.eqb_refl. apply Nat.ltb_lt in H. rewrite H. auto.
Qed.
Lemma nth_upd_neq {A} (l : list A) i j v d : j <> i -> nth j (upd l i v) d = nth j l d.
Proof. intro H. rewrite nth_upd. apply Nat.eqb_neq in H. rewrite H. auto. Qed.

Lemma upd_out {A} (l : list A) i v : (length l <= i)%nat -> upd l i v = l.
Proof.
  revert i; induction l; intros i H; destruct i; simpl in *; auto; try lia.
  f_equal. apply IHl. lia.
Qed.

Lemma list_ext {A} (d : A) l1 l2 :
  length l1 = length l2 -> (forall i, (i < length l1)%nat -> nth i l1 d = nth i l2 d) -> l1 = l2.
Proof.
  revert l2; induction l1; destruct l2; simpl; intros HL H; try discriminate; auto.
  f_equal.
  - apply (H 0%nat). lia.
  - apply IHl1. lia. intros i Hi. apply (H (S i)). lia.
Qed.

Lemma nth_error_upd {A} (l : list A) i j v :
  nth_error (upd l i v) j = if Nat.eqb j i then (if Nat.ltb i (length l) then Some v else None) else nth_error l j.
Proof.
  revert i j; induction l; intros i j.
  - simpl. destruct i, j; simpl; auto; destruct (j =? i)%nat; auto.
  - destruct i, j; simpl; auto. rewrite IHl. destruct (j =? i)%nat; auto.
Qed.

(** ** forn *)
Lemma forn_inv {S} (P : nat -> S -> Prop) n f s :
  P 0%nat s -> (forall k x, (k < n)%nat -> P k x -> P (Datatypes.S k) (f k x)) -> P n (forn n f s).
Proof.
  intros H0 HS.
  assert (H : forall m, (m <= n)%nat -> P m (forn m f s)).
  { induction m; intro Hm; simpl; auto. apply HS; [lia|]. apply IHm. lia. }
  apply H; lia.
Qed.
Lemma forn_ext {S} n (f g : nat -> S -> S) s :
  (forall k x, (k < n)%nat -> f k x = g k x) -> forn n f s = forn n g s.
Proof.
  intro H. induction n; simpl; auto. rewrite IHn; auto.
Qed.

(** ** qsum *)
Lemma qsum_ext n f g : (forall i, (i < n)%nat -> f i = g i) -> qsum n f = qsum n g.
Proof. intro H. induction n; simpl; auto. rewrite IHn, H; auto. Qed.
Lemma qsum_zero n f : (forall i, (i < n)%nat -> f i = 0%Qc) -> qsum n f = 0%Qc.
Proof. intro H. induction n; simpl; auto. rewrite IHn, H by auto. ring. Qed.
Lemma qsum_add n f g : qsum n (fun i => f i + g i)%Qc = (qsum n f + qsum n g)%Qc.
Proof. induction n; simpl; [ring | rewrite IHn; ring]. Qed.
Lemma qsum_sub n f g : qsum n (fun i => f i - g i)%Qc = (qsum n f - qsum n g)%Qc.
Proof. induction n; simpl; [ring | rewrite IHn; ring]. Qed.
Lemma qsum_scale n c f : qsum n (fun i => c * f i)%Qc = (c * qsum n f)%Qc.
Proof. induction n; simpl; [ring | rewrite IHn; ring]. Qed.
Lemma qsum_scale_r n c f : qsum n (fun i => f i * c)%Qc = (qsum n f * c)%Qc.
Proof. induction n; simpl; [ring | rewrite IHn; ring]. Qed.
Lemma qsum_opp n f : qsum n (fun i => - f i)%Qc = (- qsum n f)%Qc.
Proof. induction n; simpl; [ring | rewrite IHn; ring]. Qed.
Lemma qsum_swap n m f :
  qsum n (fun i => qsum m (fun j => f i j)) = qsum m (fun j => qsum n (fun i => f i j)).
Proof.
  induction n; simpl.
  - symmetry. apply qsum_zero. auto.
  - rewrite IHn, <- qsum_add. reflexivity.
Qed.
Lemma qsum_split n k f : (k <= n)%nat -> qsum n f = (qsum k f + qsum (n - k) (fun i => f (k + i)%nat))%Qc.
Proof.
  intro H. induction n.
  - assert (k = 0)%nat by lia. subst. simpl. ring.
  - destruct (Nat.eq_dec k (S n)).
    + subst. rewrite Nat.sub_diag. simpl. ring.
    + rewrite Nat.sub_succ_l by lia. simpl. rewrite IHn by lia.
      replace (k + (n - k))%nat with n by lia. ring.
Qed.
Lemma qsum_single n k f : (k < n)%nat -> (forall i, (i < n)%nat -> i <> k -> f i = 0%Qc) -> qsum n f = f k.
Proof.
  intros Hk H. induction n; [lia|]. simpl. destruct (Nat.eq_dec k n).
  - subst. rewrite qsum_zero. ring. intros; apply H; lia.
  - rewrite IHn by (auto; lia). rewrite (H n) by lia. ring.
Qed.
Lemma qsum_trunc n k f : (k <= n)%nat -> (forall i, (k <= i < n)%nat -> f i = 0%Qc) -> qsum n f = qsum k f.
Proof.
  intros Hk H. rewrite (qsum_split n k) by auto. rewrite (qsum_zero (n-k)).
  ring. intros. apply H. lia.
Qed.
Lemma qsum_shift n f : qsum (S n) f = (f 0%nat + qsum n (fun i => f (S i)))%Qc.
Proof.
  rewrite (qsum_split (S n) 1) by lia. simpl. replace (n - 0)%nat with n by lia. ring.
Qed.
Lemma qsum_const n c : qsum n (fun _ => c) = (Q2Qc (inject_Z (Z.of_nat n)) * c)%Qc.
Proof.
  induction n.
  - simpl. change (Q2Qc (inject_Z 0)) with (Q2Qc 0). ring.
  - simpl qsum. rewrite IHn. rewrite Nat2Z.inj_succ. unfold Z.succ. rewrite inject_Z_plus.
    assert (E : (Q2Qc (inject_Z (Z.of_nat n) + inject_Z 1) = Q2Qc (inject_Z (Z.of_nat n)) + 1)%Qc).
    { apply Qc_is_canon. qthis_goal. reflexivity. }
    rewrite E. ring.
Qed.

(** ** Outcome loops *)
Lemma ofor_inv {S} (P : nat -> S -> Prop) a b body s :
  (a <= b)%nat -> P a s ->
  (forall k x, (a <= k < b)%nat -> P k x -> exists x', body k x = Ret x' /\ P (Datatypes.S k) x') ->
  exists s', ofor a b body s = Ret s' /\ P b s'.
Proof.
  unfold ofor. intros Hab H0 HS.
  remember (b - a)%nat as cnt eqn:Hc.
  revert a s Hab Hc H0 HS. induction cnt; intros a s Hab Hc H0 HS; simpl.
  - assert (a = b) by lia. subst. eauto.
  - destruct (HS a s) as (x' & Hb & Hx'); [lia|auto|].
    rewrite Hb. simpl. apply IHcnt; auto; try lia.
    intros k x Hk. apply HS. lia.
Qed.

Lemma rd_ok {A} (l : list A) i d : (i < length l)%nat -> rd l i = Ret (nth i l d).
Proof.
  intro H. unfold rd. destruct (nth_error l i) eqn:E.
  - f_equal. symmetry. apply nth_error_nth; auto.
  - apply nth_error_None in E. lia.
Qed.
Lemma wr_ok {A} (l : list A) i v : (i < length l)%nat -> wr l i v = Ret (upd l i v).
Proof. intro H. unfold wr. apply Nat.ltb_lt in H. rewrite H. auto. Qed.
Lemma rdat_ok {A} (l : list A) i d : (i < length l)%nat -> rdat l i = Ret (nth i l d).
Proof.
  intro H. unfold rdat. destruct (nth_error l i) eqn:E.
  - f_equal. symmetry. apply nth_error_nth; auto.
  - apply nth_error_None in E. lia.
Qed.
Lemma rdat_throw {A} (l : list A) i : (length l <= i)%nat -> rdat l i = Throw.
Proof. intro H. unfold rdat. apply nth_error_None in H. rewrite H. auto. Qed.
Lemma wrat_ok {A} (l : list A) i v : (i < length l)%nat -> wrat l i v = Ret (upd l i v).
Proof. intro H. unfold wrat. apply Nat.ltb_lt in H. rewrite H. auto. Qed.

Lemma obind_ret {A B} (x : Outcome A) (f : A -> Outcome B) y :
  obind x f = Ret y -> exists a, x = Ret a /\ f a = Ret y.
Proof. destruct x; simpl; try discriminate. eauto. Qed.

Lemma nth_map_seq {A} n (f : nat -> A) d i : (i < n)%nat -> nth i (map f (seq 0 n)) d = f i.
Proof.
  intro H. rewrite (nth_indep _ d (f 0%nat)) by (rewrite map_length, seq_length; auto).
  rewrite map_nth, seq_nth by auto. reflexivity.
Qed.

(** closed rational computations *)
Ltac qcompute := apply Qc_is_canon; vm_compute; reflexivity.
Ltac qdiscr E := apply (f_equal this) in E; vm_compute in E; discriminate.
