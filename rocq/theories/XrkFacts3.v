(** XrkFacts3.v - k steps of a Runge-Kutta method as one step of another one; its weights as polynomials in k; extrapolation of such steps. *)
From Coq Require Import List Arith Bool ZArith QArith Qcanon Lia Field.
From Verif Require Import Base BaseFacts VecModel VOps RkModel RkSpec RkFacts StepSpec ExtModel ExtSpec ExtFacts ExtFacts2 XrkFacts XrkFacts2.
Import ListNotations.
Local Open Scope Qc_scope.

Definition comp (e : Qc) (F G : ft) : ft := let m := f_n F in
  mkFt (m + f_n G) (fun i j => if i <? m then f_a F i j else if j <? m then f_b F j else f_a G (i - m) (j - m)) (fun i => if i <? m then f_b F i else f_b G (i - m)) (fun i => if i <? m then f_c F i else e + f_c G (i - m)).
Definition none : ft := mkFt 0 (fun _ _ => 0) (fun _ => 0) (fun _ => 0).
Fixpoint subs (k : nat) (T : ft) : ft := match k with O => none | S k' => comp (qn k') (subs k' T) T end.
Lemma ltb_t a b : (a < b)%nat -> (a <? b)%nat = true. Proof. apply Nat.ltb_lt. Qed.
Lemma ltb_f a b : (b <= a)%nat -> (a <? b)%nat = false. Proof. apply Nat.ltb_ge. Qed.
Lemma comp_row e F G (g : nat -> Qc) i : qsum (f_n F + i) (fun j => f_a (comp e F G) (f_n F + i)%nat j * g j) = qsum (f_n F) (fun j => f_b F j * g j) + qsum i (fun j => f_a G i j * g (f_n F + j)%nat).
Proof.
  rewrite qsum_split. f_equal; apply qsum_ext; intros j Hj; cbn [comp f_a]; rewrite (ltb_f (f_n F + i)) by lia.
  - rewrite ltb_t by lia. reflexivity.
  - rewrite ltb_f by lia. replace (f_n F + i - f_n F)%nat with i by lia. replace (f_n F + j - f_n F)%nat with j by lia. reflexivity.
Qed.
Lemma comp_sum e F G (g : nat -> Qc) : qsum (f_n (comp e F G)) (fun i => f_b (comp e F G) i * g i) = qsum (f_n F) (fun i => f_b F i * g i) + qsum (f_n G) (fun i => f_b G i * g (f_n F + i)%nat).
Proof.
  cbn [comp f_n]. rewrite qsum_split. f_equal; apply qsum_ext; intros i Hi; cbn [comp f_b].
  - rewrite ltb_t by lia. reflexivity.
  - rewrite ltb_f by lia. replace (f_n F + i - f_n F)%nat with i by lia. reflexivity.
Qed.
Lemma comp_step n f e F G t h x k k' y z : stages_of n f F t h x k -> result_of n F h x k y -> stages_of n f G (t + e * h) h y k' -> result_of n G h y k' z ->
  exists k2, stages_of n f (comp e F G) t h x k2 /\ result_of n (comp e F G) h x k2 z.
Proof.
  intros SF [LY RF] SG [LZ RG]. set (k2 := fun i => if (i <? f_n F)%nat then k i else k' (i - f_n F)%nat). exists k2.
  assert (K1 : forall i, (i < f_n F)%nat -> k2 i = k i) by (intros i Hi; unfold k2; rewrite ltb_t by lia; reflexivity).
  assert (K2 : forall i, k2 (f_n F + i)%nat = k' i) by (intros i; unfold k2; rewrite ltb_f by lia; replace (f_n F + i - f_n F)%nat with i by lia; reflexivity).
  split.
  - intros s Hs. destruct (Nat.lt_ge_cases s (f_n F)) as [L|L].
    + destruct (SF s L) as (arg & LA & EV & A). exists arg. split; [exact LA|]. cbn [comp f_c f_a]. rewrite ltb_t by lia. rewrite K1 by exact L. split; [exact EV|]. intros j Hj.
      rewrite A by exact Hj. f_equal. f_equal. apply qsum_ext. intros i Hi. rewrite K1 by lia. reflexivity.
    + replace s with (f_n F + (s - f_n F))%nat in * by lia. set (i := (s - f_n F)%nat) in *. cbn [comp f_n] in Hs. destruct (SG i ltac:(lia)) as (arg & LA & EV & A). exists arg. split; [exact LA|]. rewrite K2. split.
      * cbn [comp f_c]. rewrite ltb_f by lia. replace (f_n F + i - f_n F)%nat with i by lia. replace (t + h * (e + f_c G i)) with (t + e * h + h * f_c G i) by ring. exact EV.
      * intros j Hj. rewrite A, RF by exact Hj. rewrite (comp_row e F G (fun q => cmp_ (k2 q) j) i).
        rewrite (qsum_ext (f_n F) (fun q => f_b F q * cmp_ (k2 q) j) (fun s => f_b F s * cmp_ (k s) j)) by (intros q Hq; rewrite K1 by exact Hq; reflexivity).
        rewrite (qsum_ext i (fun q => f_a G i q * cmp_ (k2 (f_n F + q)%nat) j) (fun q => f_a G i q * cmp_ (k' q) j)) by (intros q Hq; rewrite K2; reflexivity). ring.
  - split; [exact LZ|]. intros j Hj. rewrite RG, RF by exact Hj. rewrite (comp_sum e F G (fun q => cmp_ (k2 q) j)).
    rewrite (qsum_ext (f_n F) (fun q => f_b F q * cmp_ (k2 q) j) (fun s => f_b F s * cmp_ (k s) j)) by (intros q Hq; rewrite K1 by exact Hq; reflexivity).
    rewrite (qsum_ext (f_n G) (fun q => f_b G q * cmp_ (k2 (f_n F + q)%nat) j) (fun q => f_b G q * cmp_ (k' q) j)) by (intros q Hq; rewrite K2; reflexivity). ring.
Qed.

(** the table of the library as functions *)
Definition of_co (co : coeffs QcNum) (stages : nat) : ft := mkFt stages (A_ co) (B_ co stages 0) (C_ co).
Lemma of_co_step co stages n f h s s' : textbook_step co stages n f h s s' -> exists k, stages_of n f (of_co co stages) (fst s) h (snd s) k /\ result_of n (of_co co stages) h (snd s) k (snd s').
Proof.
  intros [_ (ev & k & (_ & _ & ST) & [LY RES])]. exists (fun i => nth i k []). split.
  - intros i Hi. destruct (ST i Hi) as (arg & _ & E & L & A). exists arg. auto.
  - split; [exact LY|]. exact RES.
Qed.
Lemma subs_step co stages n f h t x : length x = n -> forall k (traj : nat -> Qc * list Qc), traj 0%nat = (t, x) -> (forall i, (i < k)%nat -> textbook_step co stages n f h (traj i) (traj (S i))) ->
  fst (traj k) = t + qn k * h /\ exists ks, stages_of n f (subs k (of_co co stages)) t h x ks /\ result_of n (subs k (of_co co stages)) h x ks (snd (traj k)).
Proof.
  intros LX. induction k as [|k I]; intros traj T0 H.
  - rewrite T0. cbn [fst snd]. split; [rewrite qn_0; ring|]. exists (fun _ => []). split; [intros s Hs; cbn in Hs; lia|]. split; [exact LX|]. intros j Hj. cbn [subs none f_n qsum]. ring.
  - destruct (I traj T0) as (TK & ks & ST & RES); [intros; apply H; lia|]. pose proof (H k ltac:(lia)) as S1. pose proof (proj1 S1) as TS. split; [rewrite TS, TK, qn_S; ring|].
    destruct (of_co_step _ _ _ _ _ _ _ S1) as (k' & SG & RG). rewrite TK in SG. cbn [subs]. eapply comp_step; eassumption.
Qed.

(** * Weights *)
Section Weights.
Context (T : ft).
Notation m := (f_n T).
Lemma subs_n k : f_n (subs k T) = (k * m)%nat.
Proof. induction k as [|k I]; [reflexivity|]. cbn [subs comp f_n]. rewrite I. lia. Qed.
Lemma subs_sum k g : qsum (f_n (subs k T)) (fun i => f_b (subs k T) i * g i) = qsum k (fun i => qsum m (fun j => f_b T j * g (i * m + j)%nat)).
Proof. induction k as [|k I]; [reflexivity|]. cbn [subs]. rewrite comp_sum, I, subs_n. reflexivity. Qed.
(** the weight of a tree at stage j of step i, in units of the step *)
Fixpoint sg (t : tree) (i j : nat) : Qc :=
  match t with Node l => (fix go (l : list tree) : Qc := match l with [] => 1
    | c :: r => (qsum i (fun i' => qsum m (fun j' => f_b T j' * sg c i' j')) + qsum j (fun j' => f_a T j j' * sg c i j')) * go r end) l end.
Definition ph (t : tree) (k : nat) : Qc := qsum k (fun i => qsum m (fun j => f_b T j * sg t i j)).
Lemma sg_Node l i j : sg (Node l) i j = qprod l (fun c => ph c i + qsum j (fun j' => f_a T j j' * sg c i j')).
Proof. induction l as [|c l I]; [reflexivity|]. rewrite qprod_cons, <- I. reflexivity. Qed.
Lemma subs_fw k : forall t i j, (i < k)%nat -> (j < m)%nat -> fw (f_a (subs k T)) t (i * m + j)%nat = sg t i j.
Proof.
  induction k as [|k I]; intros t i j Hi Hj; [lia|]. destruct (Nat.lt_ge_cases i k) as [L|L].
  - rewrite <- I by assumption. assert (LE : (i * m + j < f_n (subs k T))%nat) by (rewrite subs_n; assert ((i + 1) * m <= k * m)%nat by (apply Nat.mul_le_mono_r; lia); lia).
    apply (fw_ext_upto _ _ (f_n (subs k T))); [|exact LE]. intros u v Hu Hv. cbn [subs comp f_a]. rewrite ltb_t by exact Hu. reflexivity.
  - assert (i = k) by lia. subst i. clear Hi L. replace (k * m + j)%nat with (f_n (subs k T) + j)%nat by (rewrite subs_n; reflexivity). revert j Hj.
    induction t as [l J] using tree_ind2. intros j Hj. rewrite fw_Node, sg_Node. apply qprod_ext. intros c Hc. cbn [subs].
    rewrite (comp_row (qn k) (subs k T) T (fun q => fw (f_a (comp (qn k) (subs k T) T)) c q) j). f_equal.
    + unfold ph. rewrite subs_sum. apply qsum_ext. intros u Hu. apply qsum_ext. intros v Hv. rewrite <- (I c u v Hu Hv). f_equal.
      assert (LE : (u * m + v < f_n (subs k T))%nat) by (rewrite subs_n; assert ((u + 1) * m <= k * m)%nat by (apply Nat.mul_le_mono_r; lia); lia).
      apply (fw_ext_upto _ _ (f_n (subs k T))); [|exact LE]. intros a b Ha Hb. cbn [comp f_a]. rewrite ltb_t by exact Ha. reflexivity.
    + apply qsum_ext. intros v Hv. rewrite <- (J c Hc v) by lia. reflexivity.
Qed.
Lemma subs_wt k t : wt (subs k T) t = ph t k.
Proof. unfold wt, ph. rewrite subs_sum. apply qsum_ext. intros i Hi. apply qsum_ext. intros j Hj. rewrite subs_fw by assumption. reflexivity. Qed.
Hypothesis CONS : qsum m (f_b T) = 1.
Lemma pol_qsum k d : forall (c : nat -> Qc) (F : nat -> nat -> Qc), (forall j, (j < k)%nat -> pol d (c j) (F j)) -> pol d (qsum k c) (fun i => qsum k (fun j => F j i)).
Proof.
  induction k as [|k I]; intros c F H; cbn [qsum]; [apply pol_zero|]. apply (pol_add d (qsum k c) (c k) (fun i => qsum k (fun j => F j i)) (F k)); [apply I; intros; apply H; lia|apply H; lia].
Qed.
Lemma qden_nz t : qn (density t) <> 0.
Proof.
  apply qn_pos. induction t as [l I] using tree_ind2. rewrite density_Node. assert (0 < denl l)%nat; [|nia]. clear - I. induction l as [|c l J]; cbn [denl fold_right]; [lia|].
  pose proof (I c (or_introl eq_refl)). fold (denl l). assert (0 < denl l)%nat by (apply J; intros; apply I; right; assumption). nia.
Qed.
Lemma weights_pol : forall t, (forall j, pol (order t - 1) (qn (order t) / qn (density t)) (fun i => sg t i j)) /\ pol (order t) (1 / qn (density t)) (ph t).
Proof.
  intros t. induction t as [l I] using tree_ind2. pose proof (qden_nz (Node l)) as NZ. rewrite order_Node, density_Node in *. rewrite ExtFacts.qn_mul in *. rewrite Nat.sub_succ, Nat.sub_0_r.
  assert (ND : qn (denl l) <> 0) by (intros E; rewrite E in NZ; apply NZ; ring). pose proof (qn_pos (S (ordl l)) ltac:(lia)) as NS.
  assert (G : forall j, pol (ordl l) (1 / qn (denl l)) (fun i => sg (Node l) i j)).
  { intros j. apply (pol_ext (ordl l) (1 / qn (denl l)) _ (fun i => qprod l (fun c => ph c i + qsum j (fun j' => f_a T j j' * sg c i j')))); [intros i; symmetry; apply sg_Node|reflexivity|].
    clear NZ. revert ND. induction l as [|c l J]; intros ND; [intros i; change (1 = 1 / qn 1); rewrite qn_1; field; discriminate|]. change (ordl (c :: l)) with (order c + ordl l)%nat. change (denl (c :: l)) with (density c * denl l)%nat in *.
    rewrite ExtFacts.qn_mul in *. assert (N1 : qn (density c) <> 0) by (intros E; rewrite E in ND; apply ND; ring). assert (N2 : qn (denl l) <> 0) by (intros E; rewrite E in ND; apply ND; ring).
    destruct (I c (or_introl eq_refl)) as [PS PP].
    assert (P1 : pol (order c) (1 / qn (density c) + 0) (fun i => ph c i + qsum j (fun j' => f_a T j j' * sg c i j'))).
    { apply (pol_add (order c) _ _ (ph c) (fun i => qsum j (fun j' => f_a T j j' * sg c i j'))); [exact PP|]. assert (O : order c = S (order c - 1)) by (destruct c as [k]; rewrite order_Node; lia). rewrite O at 1. eapply pol_up.
      apply (pol_qsum j (order c - 1) (fun j' => f_a T j j' * (qn (order c) / qn (density c))) (fun j' i => f_a T j j' * sg c i j')). intros j' _. apply (pol_scale (order c - 1) (f_a T j j') _ (fun i => sg c i j')). apply PS. }
    eapply pol_ext; [| |exact (pol_mult (order c) (ordl l) _ _ _ _ P1 (J (fun c' H => I c' (or_intror H)) (qn_pos (S (ordl l)) ltac:(lia)) N2))].
    - intros i. cbn beta. rewrite qprod_cons. reflexivity.
    - field. auto. }
  split; [intros j; eapply pol_ext; [|  |exact (G j)]; [reflexivity|field; auto]|].
  eapply pol_ext; [| |apply (pol_sum (ordl l) (qsum m (fun j => f_b T j * (1 / qn (denl l)))) (fun i => qsum m (fun j => f_b T j * sg (Node l) i j)))].
  - intros k. reflexivity.
  - rewrite (qsum_ext m (fun j => f_b T j * (1 / qn (denl l))) (fun j => 1 / qn (denl l) * f_b T j)) by (intros; ring). rewrite qsum_scale, CONS. field. auto.
  - apply (pol_qsum m (ordl l) (fun j => f_b T j * (1 / qn (denl l))) (fun j i => f_b T j * sg (Node l) i j)). intros j _. apply (pol_scale (ordl l) (f_b T j) _ (fun i => sg (Node l) i j)). apply G.
Qed.
(** the weights of k substeps of size 1/k: a polynomial in 1/k of degree below the order, with the right value at zero *)
Lemma sub_weight t : exists r, length r = order t /\ peval r 0 = 1 / qn (density t) /\ forall k, (0 < k)%nat -> wt (resize (qn k) (subs k T)) t = peval r (1 / qn k).
Proof.
  destruct (pol_div (order t) ltac:(destruct t as [l]; rewrite order_Node; lia) _ _ (proj2 (weights_pol t)) eq_refl) as (r & Lr & R0 & R).
  exists r. split; [exact Lr|]. split; [exact R0|]. intros k Hk. rewrite wt_resize by (apply qn_pos; exact Hk). rewrite subs_wt. apply R. exact Hk.
Qed.
Lemma subs_rows : rows_ok T -> forall k, rows_ok (subs k T) /\ qsum (f_n (subs k T)) (f_b (subs k T)) = qn k.
Proof.
  intros RT k. induction k as [|k [I J]]; [split; [intros s Hs; cbn in Hs; lia|reflexivity]|]. split.
  - intros s Hs. cbn [subs] in *. destruct (Nat.lt_ge_cases s (f_n (subs k T))) as [L|L].
    + cbn [comp f_c f_a]. rewrite ltb_t by exact L. rewrite <- I by exact L. reflexivity.
    + replace s with (f_n (subs k T) + (s - f_n (subs k T)))%nat in * by lia. set (i := (s - f_n (subs k T))%nat) in *.
      rewrite (qsum_ext _ (f_a (comp (qn k) (subs k T) T) (f_n (subs k T) + i)%nat) (fun j => f_a (comp (qn k) (subs k T) T) (f_n (subs k T) + i)%nat j * (fun _ => 1) j)) by (intros; ring).
      rewrite (comp_row _ _ _ (fun _ => 1)). cbn [comp f_n] in Hs. cbn [comp f_c]. rewrite ltb_f by lia. replace (f_n (subs k T) + i - f_n (subs k T))%nat with i by lia. rewrite <- (RT i) by lia. rewrite <- J.
      apply (f_equal2 Qcplus); apply qsum_ext; intros; ring.
  - cbn [subs]. rewrite (qsum_ext _ (f_b (comp (qn k) (subs k T) T)) (fun i => f_b (comp (qn k) (subs k T) T) i * (fun _ => 1) i)) by (intros; ring). rewrite (comp_sum _ _ _ (fun _ => 1)). rewrite qn_S, <- J.
    assert (A : forall q b, qsum q (fun i => b i * 1) = qsum q b) by (intros; apply qsum_ext; intros; ring). rewrite !A. change (f_n T) with m. rewrite CONS. ring.
Qed.
End Weights.

(** * Extrapolation is a linear combination *)
Definition wx (x : nat -> Qc) (a k i : nat) : Qc := extrap x (fun j => if (j =? i)%nat then 1 else 0) a k.
Lemma extrap_linear x u v (c d : Qc) : forall k a, extrap x (fun i => c * u i + d * v i) a k = c * extrap x u a k + d * extrap x v a k.
Proof. induction k as [|k I]; intros a; cbn [extrap]; [reflexivity|]. rewrite !I. unfold Qcdiv. ring. Qed.
Lemma extrap_ext x u v : forall k a, (forall i, (a <= i <= a + k)%nat -> u i = v i) -> extrap x u a k = extrap x v a k.
Proof. induction k as [|k I]; intros a H; cbn [extrap]; [apply H; lia|]. rewrite (I (S a)), (I a); [reflexivity|intros; apply H; lia|intros; apply H; lia]. Qed.
Lemma extrap_zero x : forall k a, extrap x (fun _ => 0) a k = 0.
Proof. induction k as [|k I]; intros a; cbn [extrap]; [reflexivity|]. rewrite !I. unfold Qcdiv. ring. Qed.
Lemma extrap_sum x a k (v : nat -> Qc) : forall m, extrap x (fun i => if (i <? m)%nat then v i else 0) a k = qsum m (fun i => wx x a k i * v i).
Proof.
  induction m as [|m I]; cbn [qsum].
  - transitivity (extrap x (fun _ => 0) a k); [apply extrap_ext; intros i _; reflexivity|apply extrap_zero].
  - rewrite <- I. unfold wx. transitivity (extrap x (fun i => 1 * (if (i <? m)%nat then v i else 0) + v m * (if (i =? m)%nat then 1 else 0)) a k).
    + apply extrap_ext. intros i _. destruct (Nat.lt_trichotomy i m) as [H|[->|H]].
      * rewrite !ltb_t by lia. replace (i =? m)%nat with false by (symmetry; apply Nat.eqb_neq; lia). ring.
      * rewrite ltb_t, ltb_f, Nat.eqb_refl by lia. ring.
      * rewrite !ltb_f by lia. replace (i =? m)%nat with false by (symmetry; apply Nat.eqb_neq; lia). ring.
    + rewrite extrap_linear. ring.
Qed.
Lemma extrap_weights x k v : extrap x v 0 k = qsum (S k) (fun i => wx x 0 k i * v i).
Proof. rewrite <- extrap_sum. apply extrap_ext. intros i Hi. rewrite ltb_t by lia. reflexivity. Qed.

(** * The table of an extrapolated step: the blocks of the reference solver, weighted *)
Fixpoint mix (w : nat -> Qc) (F : nat -> ft) (m : nat) : ft := match m with O => none | S m' => cat (w m') (F m') (mix w F m') end.
Lemma wt_none t : wt none t = 0. Proof. reflexivity. Qed.
Lemma wt_mix w F t : forall m, wt (mix w F m) t = qsum m (fun i => w i * wt (F i) t).
Proof. induction m as [|m I]; [reflexivity|]. cbn [mix qsum]. rewrite wt_cat, I. ring. Qed.
Lemma rows_mix w F : forall m, (forall i, (i < m)%nat -> rows_ok (F i)) -> rows_ok (mix w F m).
Proof. induction m as [|m I]; intros H; [intros s Hs; cbn in Hs; lia|]. cbn [mix]. apply rows_cat; [apply H; lia|apply I; intros; apply H; lia]. Qed.
Lemma mix_n w F m : (0 < m)%nat -> (forall i, (i < m)%nat -> (0 < f_n (F i))%nat) -> (0 < f_n (mix w F m))%nat.
Proof. destruct m as [|m]; [lia|]. intros _ H. cbn [mix cat f_n]. specialize (H m ltac:(lia)). lia. Qed.
Lemma mix_c0 w F m : (0 < m)%nat -> (forall i, (i < m)%nat -> (0 < f_n (F i))%nat /\ f_c (F i) 0%nat = 0) -> f_c (mix w F m) 0%nat = 0.
Proof. destruct m as [|m]; [lia|]. intros _ H. cbn [mix cat f_c]. destruct (H m ltac:(lia)) as [A B]. rewrite ltb_t by exact A. exact B. Qed.
Lemma mix_step n f w F t h x (y : nat -> list Qc) : length x = n -> forall m, (forall i, (i < m)%nat -> exists k, stages_of n f (F i) t h x k /\ result_of n (F i) h x k (y i)) ->
  forall u, length u = n -> (forall j, (j < n)%nat -> cmp_ u j = cmp_ x j + qsum m (fun i => w i * (cmp_ (y i) j - cmp_ x j))) ->
  exists k, stages_of n f (mix w F m) t h x k /\ result_of n (mix w F m) h x k u.
Proof.
  intros LX. induction m as [|m I]; intros H u LU HU.
  - exists (fun _ => []). split; [intros s Hs; cbn in Hs; lia|]. split; [exact LU|]. intros j Hj. rewrite HU by exact Hj. cbn [qsum mix none f_n]. ring.
  - destruct (H m ltac:(lia)) as (k & SK & RK). set (v := map (fun j => cmp_ x j + qsum m (fun i => w i * (cmp_ (y i) j - cmp_ x j))) (seq 0 n)).
    assert (LV : length v = n) by (unfold v; rewrite map_length, seq_length; reflexivity).
    assert (HV : forall j, (j < n)%nat -> cmp_ v j = cmp_ x j + qsum m (fun i => w i * (cmp_ (y i) j - cmp_ x j))).
    { intros j Hj. unfold cmp_ at 1, v. set (g := fun j => cmp_ x j + qsum m (fun i => w i * (cmp_ (y i) j - cmp_ x j))). rewrite (nth_indep _ _ (g 0%nat)) by (rewrite map_length, seq_length; lia). rewrite map_nth, seq_nth by lia. reflexivity. }
    destruct (I (fun i Hi => H i (Nat.lt_trans _ _ _ Hi (Nat.lt_succ_diag_r m))) v LV HV) as (k' & SV & RV). cbn [mix]. eapply cat_step; [exact SK|exact RK|exact SV|exact RV|exact LU|].
    intros j Hj. rewrite HU, HV by exact Hj. cbn [qsum]. ring.
Qed.
