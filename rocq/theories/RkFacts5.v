(** RkFacts5.v - linear problems and quadrature. *)
From Coq Require Import List Arith Lia Bool ZArith QArith Qcanon Factorial.
From Verif Require Import Base BaseFacts VecModel VOps RkModel RkSpec RkFacts RkFacts2 RkFacts3 RkFacts4.
Import ListNotations.
Local Open Scope nat_scope.

Lemma linear_good n M : good_rhs (N:=QcNum) n (linear_rhs n M).
Proof. intros t x L. eexists; split; [reflexivity|]. rewrite map_length, seq_length. reflexivity. Qed.
Lemma poly_good n deg a t1 : good_rhs (N:=QcNum) n (poly_rhs n deg a t1).
Proof. intros t x L. eexists; split; [reflexivity|]. rewrite map_length, seq_length. reflexivity. Qed.

(** tall trees *)
Fixpoint bushy (m : nat) : list tree := match m with O => [] | S m' => Node [] :: bushy m' end.
Lemma tall_order m : order (tall m) = S m.
Proof. induction m as [|m I]; [reflexivity|]. change (tall (S m)) with (Node [tall m]). rewrite order_Node. simpl forder. rewrite I. lia. Qed.
Lemma tall_density m : density (tall m) = fact (S m).
Proof.
  induction m as [|m I]; [reflexivity|]. change (tall (S m)) with (Node [tall m]). rewrite density_Node. simpl forder. simpl fdens.
  rewrite tall_order, I. change (fact (S (S m))) with (S (S m) * fact (S m)). rewrite Nat.mul_1_r, Nat.add_0_r. reflexivity.
Qed.
Lemma tall_weight_S co m i : stage_weight co (tall (S m)) i = qsum i (fun j => A_ co i j * stage_weight co (tall m) j)%Qc.
Proof. change (tall (S m)) with (Node [tall m]). rewrite stage_weight_Node. unfold fweight. simpl. ring. Qed.
Lemma tall_weight_zero co m : forall i, i < m -> stage_weight co (tall m) i = 0%Qc.
Proof.
  induction m as [|m I]; intros i Hi; [lia|]. rewrite tall_weight_S. apply qsum_zero. intros j Hj. rewrite I by lia. ring.
Qed.
Lemma bushy_order m : forder (bushy m) = m.
Proof. induction m as [|m I]; [reflexivity|]. simpl. rewrite I. reflexivity. Qed.
Lemma bushy_dens m : fdens (bushy m) = 1.
Proof. induction m as [|m I]; [reflexivity|]. simpl in *. rewrite I. reflexivity. Qed.
Lemma bushy_weight co stages m i : row_sums co stages -> i < stages -> fweight co (bushy m) i = qpow (C_ co i) m.
Proof.
  intros RS Hi. induction m as [|m I]; [reflexivity|]. simpl. rewrite <- I. f_equal. rewrite <- (RS i Hi). apply qsum_ext. intros j Hj. ring.
Qed.
Lemma qpow_mul a b m : qpow (a * b) m = (qpow a m * qpow b m)%Qc.
Proof. induction m as [|m I]; simpl; [ring|]. rewrite I. ring. Qed.

Section Lin.
Context (co : coeffs QcNum) (stages n : nat) (M : nat -> nat -> Qc) (x1 : list Qc) (t1 h : Qc).
(** k_s in powers of h *)
Lemma lin_slopes evals k : textbook_stages co stages n (linear_rhs n M) x1 t1 h evals k ->
  forall s, s < stages -> forall i, i < n -> cmp_ (nth s k []) i = qsum stages (fun m => qpow h m * stage_weight co (tall m) s * mpow n M (S m) x1 i)%Qc.
Proof.
  intros [_ [_ T]] s. induction s as [s I] using lt_wf_ind. intros Hs i Hi.
  destruct (T s Hs) as [arg [_ [F [La Ha]]]]. unfold linear_rhs in F. injection F as F. rewrite <- F. unfold cmp_ at 1.
  rewrite (nth_map_seq n (fun i => qsum n (fun j => M i j * cmp_ arg j)%Qc) 0%Qc i Hi).
  transitivity (qsum n (fun j => M i j * cmp_ x1 j)%Qc + h * qsum n (fun j => M i j * qsum s (fun r => A_ co s r * cmp_ (nth r k []) j)))%Qc.
  { rewrite <- qsum_scale, <- qsum_add. apply qsum_ext. intros j Hj. rewrite (Ha j Hj). ring. }
  transitivity (qsum n (fun j => M i j * cmp_ x1 j)%Qc + h * qsum stages (fun m => qpow h m * stage_weight co (tall (S m)) s * mpow n M (S (S m)) x1 i))%Qc.
  - f_equal. f_equal.
    transitivity (qsum n (fun j => qsum stages (fun m => M i j * (qpow h m * stage_weight co (tall (S m)) s * mpow n M (S m) x1 j)))%Qc).
    + apply qsum_ext. intros j Hj. rewrite qsum_scale. f_equal.
      transitivity (qsum s (fun r => qsum stages (fun m => A_ co s r * (qpow h m * stage_weight co (tall m) r * mpow n M (S m) x1 j)))%Qc).
      { apply qsum_ext. intros r Hr. rewrite qsum_scale. rewrite (I r Hr) by (try assumption; lia). reflexivity. }
      rewrite qsum_swap. apply qsum_ext. intros m Hm. rewrite tall_weight_S.
      transitivity (qsum s (fun r => A_ co s r * stage_weight co (tall m) r)%Qc * (qpow h m * mpow n M (S m) x1 j))%Qc; [|ring].
      rewrite <- qsum_scale_r. apply qsum_ext. intros r Hr. ring.
    + rewrite qsum_swap. apply qsum_ext. intros m Hm. change (mpow n M (S (S m)) x1 i) with (qsum n (fun j => M i j * mpow n M (S m) x1 j)%Qc).
      rewrite <- qsum_scale. apply qsum_ext. intros j Hj. ring.
  - assert (exists st, stages = S st) as [st ->] by (destruct stages; [lia|eauto]).
    rewrite (qsum_shift st (fun m => qpow h m * stage_weight co (tall m) s * mpow n M (S m) x1 i)%Qc). f_equal; [simpl; ring|].
    change (qsum (S st)) with (fun f => qsum st f + f st)%Qc. cbv beta. rewrite (tall_weight_zero co (S st) s Hs).
    transitivity (qsum st (fun m => h * (qpow h m * stage_weight co (tall (S m)) s * mpow n M (S (S m)) x1 i)) + 0)%Qc;
      [rewrite qsum_scale; ring|].
    transitivity (qsum st (fun m => h * (qpow h m * stage_weight co (tall (S m)) s * mpow n M (S (S m)) x1 i)))%Qc; [ring|].
    apply qsum_ext. intros m Hm. simpl. ring.
Qed.
Lemma lin_result evals k ix x2 : textbook_stages co stages n (linear_rhs n M) x1 t1 h evals k -> textbook_result co stages n ix x1 h k x2 ->
  forall i, i < n -> cmp_ x2 i = (cmp_ x1 i + qsum stages (fun m => qpow h (S m) * weight co stages ix (tall m) * mpow n M (S m) x1 i))%Qc.
Proof.
  intros T [_ R] i Hi. rewrite (R i Hi). f_equal.
  transitivity (h * qsum stages (fun s => qsum stages (fun m => B_ co stages ix s * (qpow h m * stage_weight co (tall m) s * mpow n M (S m) x1 i))))%Qc.
  - f_equal. apply qsum_ext. intros s Hs. rewrite qsum_scale. f_equal. apply (lin_slopes evals); assumption.
  - rewrite qsum_swap, <- qsum_scale. apply qsum_ext. intros m Hm. unfold weight.
    transitivity (qsum stages (fun s => B_ co stages ix s * stage_weight co (tall m) s) * (h * (qpow h m * mpow n M (S m) x1 i)))%Qc; [|simpl; ring].
    rewrite <- qsum_scale_r, <- qsum_scale. apply qsum_ext. intros s Hs. ring.
Qed.
(** order p: the first p coefficients are those of the exponential series *)
Lemma lin_order evals k ix x2 p : p <= stages -> order_conditions co stages ix p ->
  textbook_stages co stages n (linear_rhs n M) x1 t1 h evals k -> textbook_result co stages n ix x1 h k x2 ->
  forall i, i < n -> cmp_ x2 i = (qsum (S p) (fun m => qpow h m / qn (fact m) * mpow n M m x1 i)
      + qsum (stages - p) (fun r => qpow h (S (p + r)) * weight co stages ix (tall (p + r)) * mpow n M (S (p + r)) x1 i))%Qc.
Proof.
  intros Hp OC T R i Hi. rewrite (lin_result _ _ _ _ T R i Hi). rewrite (qsum_split stages p) by assumption.
  rewrite (qsum_shift p). rewrite Qcplus_assoc. f_equal. f_equal.
  - simpl. change (qn 1) with 1%Qc. field. discriminate.
  - apply qsum_ext. intros m Hm. rewrite (OC (tall m)) by (rewrite tall_order; lia). rewrite tall_density. unfold Qcdiv. ring.
Qed.
End Lin.

Section Quad.
Context (co : coeffs QcNum) (stages n deg : nat) (a : nat -> nat -> Qc) (x1 : list Qc) (t1 h : Qc).
Lemma quad_order evals k ix x2 p : deg <= p -> order_conditions co stages ix p -> row_sums co stages ->
  textbook_stages co stages n (poly_rhs n deg a t1) x1 t1 h evals k -> textbook_result co stages n ix x1 h k x2 ->
  forall i, i < n -> cmp_ x2 i = (cmp_ x1 i + qsum deg (fun m => a i m * (qpow h (S m) / qn (S m))))%Qc.
Proof.
  intros Hp OC RS [_ [_ T]] [_ R] i Hi. rewrite (R i Hi). f_equal.
  transitivity (h * qsum stages (fun s => qsum deg (fun m => B_ co stages ix s * (a i m * (qpow h m * stage_weight co (Node (bushy m)) s)))))%Qc.
  - f_equal. apply qsum_ext. intros s Hs. rewrite qsum_scale. f_equal. destruct (T s Hs) as [arg [_ [F _]]]. unfold poly_rhs in F. injection F as F. rewrite <- F.
    unfold cmp_. rewrite (nth_map_seq n (fun i => qsum deg (fun k => a i k * qpow (t1 + h * C_ co s - t1) k)%Qc) 0%Qc i Hi).
    apply qsum_ext. intros m Hm. rewrite stage_weight_Node, (bushy_weight co stages m s RS Hs). replace (t1 + h * C_ co s - t1)%Qc with (h * C_ co s)%Qc by ring.
    rewrite qpow_mul. reflexivity.
  - rewrite qsum_swap, <- qsum_scale. apply qsum_ext. intros m Hm.
    transitivity (a i m * qpow h (S m) * weight co stages ix (Node (bushy m)))%Qc.
    + unfold weight. rewrite <- !qsum_scale. apply qsum_ext. intros s Hs. simpl qpow. ring.
    + rewrite (OC (Node (bushy m))) by (rewrite order_Node, bushy_order; lia). rewrite density_Node, bushy_order, bushy_dens, Nat.mul_1_r. unfold Qcdiv. ring.
Qed.
End Quad.
