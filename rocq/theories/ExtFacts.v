(** ExtFacts.v - Neville's algorithm. *)
From Coq Require Import List Arith Lia Bool ZArith QArith Qcanon.
From Verif Require Import Base BaseFacts VecModel VOps NewtFacts RkModel RkSpec RkFacts RkFacts2 RkFacts3 StepModel StepSpec ExtModel ExtSpec.
Import ListNotations.
Local Open Scope nat_scope.

(** * The recursion is exact on polynomials *)
Section E.
Context (x : nat -> Qc) (m : nat).
Hypothesis DX : forall i j, i < j -> j < m -> x i <> x j.
Fixpoint dd (v : nat -> Qc) (a k : nat) : Qc :=
  match k with O => v a | S k' => ((dd v (S a) k' - dd v a k') / (x (a + k)%nat - x a))%Qc end.
Fixpoint xprod (a k : nat) : Qc := match k with O => x a | S k' => (xprod a k' * x (a + k)%nat)%Qc end.
Lemma xprod_l k : forall a, xprod a (S k) = (x a * xprod (S a) k)%Qc.
Proof.
  induction k as [|k I]; intros a; [cbn; replace (a + 1) with (S a) by lia; reflexivity|].
  change (xprod a (S (S k))) with (xprod a (S k) * x (a + S (S k))%nat)%Qc. rewrite I. cbn [xprod]. replace (a + S (S k)) with (S a + S k) by lia. ring.
Qed.
Lemma dx_neq a b : a <> b -> a < m -> b < m -> (x a - x b)%Qc <> 0%Qc.
Proof.
  intros N A B E. destruct (Nat.lt_trichotomy a b) as [L|[L|L]]; [|contradiction|].
  - apply (DX a b L B). replace (x a) with ((x a - x b) + x b)%Qc by ring. rewrite E. ring.
  - apply (DX b a L A). replace (x a) with ((x a - x b) + x b)%Qc by ring. rewrite E. ring.
Qed.
Fixpoint sgn1 (k : nat) : Qc := match k with O => 1%Qc | S k' => (- sgn1 k')%Qc end.
Lemma extrap_dd g k : forall a, a + k < m -> extrap x (fun i => (x i * g i)%Qc) a k = (sgn1 k * xprod a k * dd g a k)%Qc.
Proof.
  induction k as [|k I]; intros a H; [cbn; ring|].
  cbn [extrap]. rewrite !I by lia. cbn [sgn1 dd]. pose proof (xprod_l k a) as XL. cbn [xprod] in XL |- *.
  assert (D : (x a - x (a + S k)%nat)%Qc <> 0%Qc) by (apply dx_neq; lia).
  assert (D2 : (x (a + S k)%nat - x a)%Qc <> 0%Qc) by (apply dx_neq; lia).
  transitivity ((sgn1 k * (x a * xprod (S a) k) * dd g (S a) k - sgn1 k * (xprod a k * x (a + S k)%nat) * dd g a k) / (x a - x (a + S k)%nat))%Qc; [f_equal; ring|].
  rewrite <- XL. field. split; assumption.
Qed.
Lemma dd_mirror g k a : a + S k < m -> (dd g (S a) k - dd g a k = (x (a + S k)%nat - x a) * dd g a (S k))%Qc.
Proof. intros H. cbn [dd]. field. apply dx_neq; lia. Qed.
Lemma dd_leibniz g k : forall a, a + S k < m -> dd (fun i => (x i * g i)%Qc) a (S k) = (x a * dd g a (S k) + dd g (S a) k)%Qc.
Proof.
  induction k as [|k I]; intros a H.
  - cbn. replace (a + 1) with (S a) by lia. field. assert (D : (x (S a) - x a)%Qc <> 0%Qc) by (apply dx_neq; lia). exact D.
  - change (dd (fun i => (x i * g i)%Qc) a (S (S k))) with ((dd (fun i => (x i * g i)%Qc) (S a) (S k) - dd (fun i => (x i * g i)%Qc) a (S k)) / (x (a + S (S k))%nat - x a))%Qc.
    rewrite (I (S a)), (I a) by lia.
    pose proof (dd_mirror g k (S a) ltac:(lia)) as M1. pose proof (dd_mirror g (S k) a ltac:(lia)) as M2.
    replace (S a + S k) with (a + S (S k)) in M1 by lia.
    assert (D : (x (a + S (S k))%nat - x a)%Qc <> 0%Qc) by (apply dx_neq; lia).
    set (X := x (a + S (S k))%nat) in *. set (A := x a) in *. set (p := dd g (S a) (S k)) in *. set (q := dd g a (S k)) in *. set (r := dd g (S (S a)) k) in *. set (u := dd g (S a) k) in *.
    set (z := dd g a (S (S k))) in *. set (B := x (S a)) in *.
    assert (E1 : r = (u + (X - B) * p)%Qc) by (rewrite <- M1; ring). rewrite E1.
    assert (E2 : p = (q + (X - A) * z)%Qc) by (rewrite <- M2; ring).
    transitivity (((X - A) * (A * z + p)) / (X - A))%Qc; [|field; exact D]. f_equal. rewrite E2. ring.
Qed.
Lemma dd_const c k a : a + S k < m -> dd (fun _ => c) a (S k) = 0%Qc.
Proof.
  revert a. induction k as [|k I]; intros a H.
  - cbn. field. apply dx_neq; lia.
  - change (dd (fun _ => c) a (S (S k))) with ((dd (fun _ => c) (S a) (S k) - dd (fun _ => c) a (S k)) / (x (a + S (S k))%nat - x a))%Qc. rewrite !I by lia. field. apply dx_neq; lia.
Qed.
Lemma dd_ext g g' k : forall a, (forall i, a <= i <= a + k -> g i = g' i) -> dd g a k = dd g' a k.
Proof. induction k as [|k I]; intros a H; cbn; [apply H; lia|]. rewrite (I (S a)), (I a); [reflexivity| |]; intros; apply H; lia. Qed.
Lemma dd_add g g' k : forall a, a + k < m -> dd (fun i => (g i + g' i)%Qc) a k = (dd g a k + dd g' a k)%Qc.
Proof. induction k as [|k I]; intros a H; cbn; [reflexivity|]. rewrite !I by lia. field. apply dx_neq; lia. Qed.
Lemma dd_poly p : forall k a, a + k < m -> length p <= k -> dd (fun i => peval p (x i)) a k = 0%Qc.
Proof.
  induction p as [|c p I]; intros k a H L; cbn in L |- *.
  - destruct k as [|k]; [reflexivity|]. apply dd_const. lia.
  - destruct k as [|k]; [lia|]. rewrite dd_add by lia. rewrite dd_const by lia. rewrite dd_leibniz by lia. rewrite (I (S k) a), (I k (S a)) by lia. ring.
Qed.
Lemma extrap_add v w k : forall a, a + k < m -> extrap x (fun i => (v i + w i)%Qc) a k = (extrap x v a k + extrap x w a k)%Qc.
Proof. induction k as [|k I]; intros a H; cbn; [reflexivity|]. rewrite !I by lia. field. apply dx_neq; lia. Qed.
Lemma extrap_const c k : forall a, a + k < m -> extrap x (fun _ => c) a k = c.
Proof. induction k as [|k I]; intros a H; cbn; [reflexivity|]. rewrite !I by lia. field. apply dx_neq; lia. Qed.
Theorem extrap_exact p : forall k a, a + k < m -> length p <= S k -> extrap x (fun i => peval p (x i)) a k = peval p 0%Qc.
Proof.
  intros k a H L. destruct p as [|c p]; cbn [peval].
  - rewrite extrap_const by lia. reflexivity.
  - rewrite extrap_add by lia. rewrite extrap_const by lia. rewrite extrap_dd by lia. rewrite dd_poly; [ring|exact H|cbn in L; lia].
Qed.
End E.
Lemma extrap_ext x v x' v' k : forall a, (forall i, a <= i <= a + k -> x i = x' i /\ v i = v' i) -> extrap x v a k = extrap x' v' a k.
Proof.
  induction k as [|k I]; intros a H; cbn [extrap]; [apply H; lia|]. rewrite (I (S a)), (I a); [|intros; apply H; lia..].
  rewrite (proj1 (H a ltac:(lia))), (proj1 (H (a + S k) ltac:(lia))). reflexivity.
Qed.

(** * The loops *)
Lemma nnat_qn k : nnat (N:=QcNum) k = qn k.
Proof. induction k as [|k I]; [reflexivity|]. rewrite qn_S. cbn [nnat]. rewrite I. reflexivity. Qed.
Lemma qn_pos k : 0 < k -> (0 < qn k)%Qc.
Proof. intros H. unfold qn, Qclt. cbn [this Q2Qc]. rewrite !Qred_correct. unfold Qlt, inject_Z. cbn. lia. Qed.
Lemma qn_neq0 k : 0 < k -> qn k <> 0%Qc.
Proof. intros H E. pose proof (qn_pos k H) as P. rewrite E in P. apply (Qclt_not_eq _ _ P). reflexivity. Qed.
Lemma qn_inj a b : qn a = qn b -> a = b.
Proof. intros E. unfold qn in E. apply Q2Qc_eq_iff in E. unfold Qeq, inject_Z in E. cbn in E. lia. Qed.
Lemma qn_mul a b : qn (a * b) = (qn a * qn b)%Qc.
Proof. unfold qn, Qcmult, Q2Qc. apply Qc_is_canon. cbn [this]. rewrite !Qred_correct. rewrite Nat2Z.inj_mul. unfold Qeq, inject_Z. cbn. ring. Qed.
Lemma node_neq sym a b : 0 < a -> a < b -> node sym a <> node sym b.
Proof.
  intros A B E. assert (NA : qn a <> 0%Qc) by (apply qn_neq0; lia). assert (NB : qn b <> 0%Qc) by (apply qn_neq0; lia). unfold node in E. destruct sym.
  - assert (Q : (qn b * qn b = qn a * qn a)%Qc).
    { transitivity (qn a * qn a * (qn b * qn b) * (1 / (qn a * qn a)))%Qc; [field; assumption|]. rewrite E. field. assumption. }
    rewrite <- !qn_mul in Q. apply qn_inj in Q. nia.
  - assert (Q : qn b = qn a).
    { transitivity (qn a * qn b * (1 / qn a))%Qc; [field; assumption|]. rewrite E. field. assumption. }
    apply qn_inj in Q. lia.
Qed.
Lemma cmp_lscale (u : list Qc) (k : Qc) c : c < length u -> cmp_ (lscale (N:=QcNum) u k) c = (cmp_ u c * k)%Qc.
Proof.
  intros C. unfold cmp_, lscale. change (nT QcNum) with Qc. rewrite (nth_indep _ 0%Qc ((fun z : Qc => z * k)%Qc 0%Qc)) by (rewrite map_length; exact C). apply (map_nth (fun z : Qc => z * k)%Qc).
Qed.
Lemma ladd_ls (u v : list Qc) (a b : Qc) n : length u = n -> length v = n ->
  exists r, ladd (N:=QcNum) (lscale (N:=QcNum) u a) (lscale (N:=QcNum) v b) = Ret r /\ length r = n /\ forall c, c < n -> cmp_ r c = (cmp_ u c * a + cmp_ v c * b)%Qc.
Proof.
  intros U V. unfold ladd. assert (LU : @length Qc (lscale (N:=QcNum) u a) = n) by (exact (eq_trans (lscale_length (N:=QcNum) u a) U)).
  assert (LV : @length Qc (lscale (N:=QcNum) v b) = n) by (exact (eq_trans (lscale_length (N:=QcNum) v b) V)).
  rewrite (lzip_ok (N:=QcNum)) by (change (nT QcNum) with Qc; lia). eexists. split; [reflexivity|]. split; [rewrite map_length, seq_length; exact LU|].
  intros c C. unfold cmp_ at 1. change (nT QcNum) with Qc. rewrite LU. rewrite nth_map_seq by exact C. rewrite <- !cmp_lscale by lia. reflexivity.
Qed.
Section L.
Context (sym : bool) (ns : list nat) (stages n : nat).
Hypothesis INC : increasing ns stages.
Hypothesis ST : 1 <= stages.
Notation xx := (fun i => node sym (nth i ns 0)).
Lemma ns_pos i : i < stages -> 0 < nth i ns 0.
Proof. intros H. destruct INC as (L & P & Q). destruct i as [|i]; [exact P|]. specialize (Q 0 (S i) ltac:(lia) H). lia. Qed.
Lemma xx_distinct i j : i < j -> j < stages -> xx i <> xx j.
Proof. intros H J. apply node_neq; [apply ns_pos; lia|]. destruct INC as (L & P & Q). apply Q; lia. Qed.
(** state of m_T in pass k, having done j < jj: entries below a = jj - k - 1 hold level k, entries from there level k - 1 (entry i cannot be beyond level stages - 1 - i) *)
Definition level (v : nat -> nat -> Qc) (k a : nat) (Ts : list (list Qc)) (len : nat) : Prop :=
  length Ts = len /\ forall i, i < stages -> length (nth i Ts []) = n /\
  forall c, c < n -> cmp_ (nth i Ts []) c = extrap xx (fun j => v j c) i (Nat.min (if i <? a then k else k - 1) (stages - 1 - i)).
Lemma update_ok v k j Ts len : stages <= len -> 1 <= k -> k < j -> j <= stages -> level v k (j - k - 1) Ts len ->
  exists Ts', nev_update (N:=QcNum) sym ns k j Ts = Ret Ts' /\ level v k (j - k) Ts' len.
Proof.
  intros SL K J JS (L & V). unfold nev_update. change (nT QcNum) with Qc in *. destruct INC as (LN & P & Q).
  rewrite (rd_ok (A:=list Qc) Ts (j - k - 1) []), (rd_ok (A:=list Qc) Ts (j - k) []) by lia. cbn [obind].
  rewrite (rd_ok ns (j - 1) 0), (rd_ok ns (j - k - 1) 0) by lia. cbn [obind].
  destruct (V (j - k - 1) ltac:(lia)) as (L1 & V1). destruct (V (j - k) ltac:(lia)) as (L2 & V2).
  rewrite !nnat_qn. set (a := j - k - 1) in *. cbn [ndiv nmul nsub nadd nopp n1 QcNum]. set (nb := nth (j - 1) ns 0). set (na := nth a ns 0).
  set (r := if sym then (qn nb / qn na * (qn nb / qn na))%Qc else (qn nb / qn na)%Qc). set (d := (1 / (r - 1))%Qc).
  match goal with |- context [ladd ?A ?B] => assert (E : exists T1, ladd (N:=QcNum) A B = Ret T1 /\ length T1 = n /\ forall c, c < n -> cmp_ T1 c = (- d * cmp_ (nth a Ts []) c + (1 + d) * cmp_ (nth (j - k) Ts []) c)%Qc) end.
  { destruct (ladd_ls (nth a Ts []) (nth (j - k) Ts []) (- d) (1 + d) n L1 L2) as (T1 & E1 & E2 & E3). exists T1. split; [exact E1|]. split; [exact E2|]. intros c C. rewrite E3 by exact C. ring. }
  destruct E as (T1 & E1 & LT & VT). rewrite E1. cbn [obind]. rewrite wr_ok by lia. eexists. split; [reflexivity|].
  split; [rewrite upd_length; exact L|]. intros i I. rewrite nth_upd. destruct (Nat.eqb_spec i a) as [->|NE].
  - destruct (Nat.ltb_spec a (length Ts)); [|lia]. split; [exact LT|]. intros c C. rewrite VT by exact C. rewrite V1, V2 by exact C.
    destruct (Nat.ltb_spec a a); [lia|]. destruct (Nat.ltb_spec (j - k) a); [lia|]. destruct (Nat.ltb_spec a (j - k)); [|lia].
    replace (Nat.min (k - 1) (stages - 1 - a)) with (k - 1) by lia. replace (Nat.min (k - 1) (stages - 1 - (j - k))) with (k - 1) by lia. replace (Nat.min k (stages - 1 - a)) with k by lia.
    destruct k as [|k]; [lia|]. replace (S k - 1) with k by lia. cbn [extrap]. replace (j - S k) with (S a) by lia. replace (a + S k) with (j - 1) by lia. fold na nb.
    assert (Pa : 0 < na) by (apply ns_pos; lia). assert (Pb : na < nb) by (apply Q; lia). pose proof (node_neq sym na nb Pa Pb) as ND.
    assert (NA : qn na <> 0%Qc) by (apply qn_neq0; lia). assert (NB : qn nb <> 0%Qc) by (apply qn_neq0; lia).
    set (e1 := extrap _ _ (S a) k). set (e0 := extrap _ _ a k).
    assert (DD : (node sym na - node sym nb)%Qc <> 0%Qc) by (intros Z0; apply ND; replace (node sym na) with ((node sym na - node sym nb) + node sym nb)%Qc by ring; rewrite Z0; ring).
    assert (R : r = (node sym na / node sym nb)%Qc).
    { unfold r, node. destruct sym; field; repeat split; first [assumption | (let Z0 := fresh in intros Z0; qdiscr Z0)]. }
    assert (NN : node sym nb <> 0%Qc). { unfold node. destruct sym; intros Z0; apply (f_equal (fun z => z * (qn nb * qn nb))%Qc) in Z0.
      - assert (Z1 : (1 / (qn nb * qn nb) * (qn nb * qn nb) = 1)%Qc) by (field; exact NB). rewrite Z1 in Z0. qdiscr Z0.
      - assert (Z1 : (1 / qn nb * (qn nb * qn nb) = qn nb)%Qc) by (field; exact NB). rewrite Z1 in Z0. apply NB. rewrite Z0. ring. }
    assert (Dd : d = (node sym nb / (node sym na - node sym nb))%Qc).
    { unfold d. rewrite R. field. split; [exact DD|exact NN]. }
    rewrite Dd. field. exact DD.
  - destruct (V i I) as (Li & Vi). split; [exact Li|]. intros c C. rewrite Vi by exact C. f_equal. f_equal.
    destruct (Nat.ltb_spec i a), (Nat.ltb_spec i (j - k)); try reflexivity; lia.
Qed.
Theorem neville_level v Ts len : stages <= len -> level v 1 0 Ts len -> exists Ts', neville (N:=QcNum) sym ns stages Ts = Ret Ts' /\ level v stages 0 Ts' len.
Proof.
  intros SL H. unfold neville.
  apply (ofor_inv (fun k Ts => level v k 0 Ts len) 1 stages); [exact ST|exact H|].
  intros k Tk K V.
  destruct (ofor_inv (fun j Ts => level v k (j - k - 1) Ts len) (k + 1) (stages + 1) (nev_update (N:=QcNum) sym ns k) Tk) as (Tk' & E & V').
  - lia.
  - replace (k + 1 - k - 1) with 0 by lia. exact V.
  - intros j Tj J VJ. destruct (update_ok v k j Tj len SL ltac:(lia) ltac:(lia) ltac:(lia) VJ) as (T' & E & V'). exists T'. split; [exact E|]. replace (S j - k - 1) with (j - k) by lia. exact V'.
  - exists Tk'. split; [exact E|]. destruct V' as (L' & V'). split; [exact L'|]. intros i I. destruct (V' i I) as (Li & Vi). split; [exact Li|]. intros c C. rewrite Vi by exact C.
    f_equal. destruct (Nat.ltb_spec i (stages + 1 - k - 1)), (Nat.ltb_spec i 0); lia.
Qed.
Theorem neville_table (Ts : list (list Qc)) : table Ts stages n ->
  exists Ts', neville (N:=QcNum) sym ns stages Ts = Ret Ts' /\ length Ts' = length Ts /\ table Ts' stages n /\
    forall i c, i < stages -> c < n -> cmp_ (nth i Ts' []) c = extrap xx (fun k => cmp_ (nth k Ts []) c) i (stages - 1 - i).
Proof.
  intros (L & V). destruct (neville_level (fun k c => cmp_ (nth k Ts []) c) Ts (length Ts)) as (Ts' & E & L' & V').
  - exact L.
  - split; [reflexivity|]. intros i I. split; [apply V; exact I|]. intros c C. destruct (Nat.ltb_spec i 0); [lia|]. reflexivity.
  - exists Ts'. split; [exact E|]. split; [exact L'|]. split; [split; [lia|intros k K; apply (V' k K)]|].
    intros i c I C. destruct (V' i I) as (_ & W). rewrite W by exact C. f_equal. destruct (Nat.ltb_spec i 0); lia.
Qed.
Theorem neville_exact (Ts : list (list Qc)) (P : nat -> list Qc) : table Ts stages n ->
  (forall k c, k < stages -> c < n -> cmp_ (nth k Ts []) c = peval (P c) (node sym (nth k ns 0))) ->
  exists Ts', neville (N:=QcNum) sym ns stages Ts = Ret Ts' /\
    (forall c, c < n -> length (P c) <= stages -> cmp_ (nth 0 Ts' []) c = peval (P c) 0%Qc) /\
    (forall c, c < n -> 2 <= stages -> length (P c) <= stages - 1 -> cmp_ (nth 1 Ts' []) c = peval (P c) 0%Qc).
Proof.
  intros HT HP. destruct (neville_table Ts HT) as (Ts' & E & _ & _ & V). exists Ts'. split; [exact E|]. split.
  - intros c C LP. rewrite V by lia. rewrite (extrap_ext _ _ xx (fun i => peval (P c) (xx i))) by (intros i I; split; [reflexivity|apply HP; lia]).
    apply (extrap_exact xx stages); [exact xx_distinct|lia|lia].
  - intros c C S2 LP. rewrite V by lia. rewrite (extrap_ext _ _ xx (fun i => peval (P c) (xx i))) by (intros i I; split; [reflexivity|apply HP; lia]).
    apply (extrap_exact xx stages); [exact xx_distinct|lia|lia].
Qed.
End L.
