(** UtilFacts.v - proofs for C47 and C53 (integers). *)
From Coq Require Import List Arith Bool ZArith QArith Qcanon Qround Lia Lqa Permutation.
From Verif Require Import Base BaseFacts VOps ParModel RkSpec NewtFacts ImpFacts UtilModel UtilSpec.
Import ListNotations.
Local Open Scope nat_scope.

Lemma zip_map2 (op : Qc -> Qc -> Qc) n a b : length a = n -> length b = n -> exists c, lzip (N:=QcNum) op a b = Ret c /\ length c = n /\ forall j, j < n -> cmp_ c j = op (cmp_ a j) (cmp_ b j).
Proof.
  intros A B. revert a b A B. induction n as [|n IH]; intros [|x a] [|y b] A B; try discriminate.
  - exists []. split; [reflexivity|]. split; [reflexivity|]. intros; lia.
  - injection A as A. injection B as B. destruct (IH a b A B) as (c & E & L & K). exists (op x y :: c). cbn [lzip]. change (nT QcNum) with Qc in *. rewrite E. split; [reflexivity|]. split; [cbn; lia|].
    intros [|j] Hj; [reflexivity|]. apply (K j). lia.
Qed.
Lemma cmp_map (f : Qc -> Qc) v j : f 0%Qc = 0%Qc -> cmp_ (map f v) j = f (cmp_ v j).
Proof. intros Z. unfold cmp_. rewrite <- Z at 1. apply map_nth. Qed.
Lemma abs0 : Qcabs 0 = 0%Qc. Proof. reflexivity. Qed.
Lemma qsuml_app a b : qsuml (a ++ b) = (qsuml a + qsuml b)%Qc.
Proof. induction a as [|x a IH]; cbn [app qsuml]; [ring|]. rewrite IH. ring. Qed.

(** The state after samples, as functions of the samples *)
Fixpoint maxabs (l : list (list Qc)) (j : nat) (m : Qc) : Qc := match l with [] => m | e :: t => maxabs t j (Qcmaxb (Qcabs (cmp_ e j)) m) end.
Lemma add_ok n e s : length e = n -> length (es_max s) = n -> length (es_sum s) = n -> length (es_sq s) = n ->
  exists s', es_add e s = (s', Ret tt) /\ length (es_max s') = n /\ length (es_sum s') = n /\ length (es_sq s') = n /\ es_n s' = ((es_n s + 1) mod UINT_MOD)%Z /\
    forall j, j < n -> cmp_ (es_max s') j = Qcmaxb (Qcabs (cmp_ e j)) (cmp_ (es_max s) j) /\ cmp_ (es_sum s') j = (cmp_ (es_sum s) j + Qcabs (cmp_ e j))%Qc /\
      cmp_ (es_sq s') j = (cmp_ (es_sq s) j + cmp_ e j * cmp_ e j)%Qc.
Proof.
  intros L A B C. unfold es_add.
  destruct (zip_map2 Qcmaxb n (map Qcabs e) (es_max s)) as (mx & E1 & L1 & K1); [rewrite map_length; exact L|exact A|].
  destruct (zip_map2 Qcplus n (es_sum s) (map Qcabs e)) as (sm & E2 & L2 & K2); [exact B|rewrite map_length; exact L|].
  destruct (zip_map2 Qcplus n (es_sq s) (map sqr_ (map Qcabs e))) as (sq & E3 & L3 & K3); [exact C|rewrite !map_length; exact L|].
  rewrite E1, E2, E3. eexists. split; [reflexivity|]. cbn [es_max es_sum es_sq es_n]. split; [exact L1|]. split; [exact L2|]. split; [exact L3|]. split; [reflexivity|].
  intros j Hj. rewrite K1, K2, K3 by exact Hj. rewrite !cmp_map by (try reflexivity; unfold sqr_; ring). split; [reflexivity|]. split; [reflexivity|].
  unfold sqr_. f_equal. unfold Qcabs. destruct (Qcltb (cmp_ e j) 0); ring.
Qed.
Lemma run_ok n l : forall s, samples n l -> length (es_max s) = n -> length (es_sum s) = n -> length (es_sq s) = n -> (0 <= es_n s < UINT_MOD)%Z ->
  exists s', es_run l s = (s', Ret tt) /\ length (es_max s') = n /\ length (es_sum s') = n /\ length (es_sq s') = n /\ es_n s' = ((es_n s + Z.of_nat (length l)) mod UINT_MOD)%Z /\
    forall j, j < n -> cmp_ (es_max s') j = maxabs l j (cmp_ (es_max s) j) /\ cmp_ (es_sum s') j = (cmp_ (es_sum s) j + sum_abs l j)%Qc /\ cmp_ (es_sq s') j = (cmp_ (es_sq s) j + sum_squares l j)%Qc.
Proof.
  induction l as [|e l IH]; intros s SA A B C NN.
  - exists s. split; [reflexivity|]. split; [exact A|]. split; [exact B|]. split; [exact C|]. split.
    + cbn [length]. rewrite Z.add_0_r, Z.mod_small by exact NN. reflexivity.
    + intros j Hj. split; [reflexivity|]. unfold sum_abs, sum_squares. cbn. split; ring.
  - pose proof (Forall_inv SA) as LE. pose proof (Forall_inv_tail SA) as SL. destruct (add_ok n e s LE A B C) as (s1 & E1 & A1 & B1 & C1 & N1 & K1).
    assert (UP : (0 < UINT_MOD)%Z) by reflexivity.
    destruct (IH s1 SL A1 B1 C1) as (s2 & E2 & A2 & B2 & C2 & N2 & K2). { rewrite N1. apply Z.mod_pos_bound. exact UP. }
    exists s2. cbn [es_run]. rewrite E1, E2. split; [reflexivity|]. split; [exact A2|]. split; [exact B2|]. split; [exact C2|]. split.
    + rewrite N2, N1. rewrite Zplus_mod_idemp_l. f_equal. cbn [length]. lia.
    + intros j Hj. destruct (K2 j Hj) as (M & S & Q). destruct (K1 j Hj) as (M1 & S1 & Q1). rewrite M, S, Q, M1, S1, Q1. cbn [maxabs]. split; [reflexivity|]. unfold sum_abs, sum_squares. cbn [map qsuml]. split; ring.
Qed.
Lemma new_cmp n j : cmp_ (repeat 0%Qc n) j = 0%Qc. Proof. unfold cmp_. revert j. induction n; intros [|j]; try reflexivity. apply IHn. Qed.
Lemma max_ge_r a b : (b <= Qcmaxb a b)%Qc. Proof. unfold Qcmaxb. qcase a b; qclra. Qed.
Lemma max_ge_l a b : (a <= Qcmaxb a b)%Qc. Proof. unfold Qcmaxb. qcase a b; qclra. Qed.
Lemma max_or a b : Qcmaxb a b = a \/ Qcmaxb a b = b. Proof. unfold Qcmaxb. destruct (Qcltb a b); auto. Qed.
Lemma maxabs_spec l j : forall m, (m <= maxabs l j m)%Qc /\ (forall e, In e l -> Qcabs (cmp_ e j) <= maxabs l j m)%Qc /\ (maxabs l j m = m \/ exists e, In e l /\ maxabs l j m = Qcabs (cmp_ e j)).
Proof.
  induction l as [|e l IH]; intros m.
  - split; [apply Qcle_refl|]. split; [intros ? []|left; reflexivity].
  - cbn [maxabs]. destruct (IH (Qcmaxb (Qcabs (cmp_ e j)) m)) as (A & B & C). split; [exact (Qcle_trans _ _ _ (max_ge_r _ m) A)|]. split.
    + intros e' [<-|H]; [exact (Qcle_trans _ _ _ (max_ge_l _ m) A)|exact (B e' H)].
    + destruct C as [C|(e' & H & C)]; [|right; exists e'; split; [right; exact H|exact C]]. rewrite C. destruct (max_or (Qcabs (cmp_ e j)) m) as [->| ->]; [right; exists e; split; [left; reflexivity|reflexivity]|left; reflexivity].
Qed.
Lemma stats_all n l : samples n l -> exists s, es_run l (es_new n) = (s, Ret tt) /\ length (es_max s) = n /\ length (es_sum s) = n /\ length (es_sq s) = n /\ es_n s = (Z.of_nat (length l) mod UINT_MOD)%Z /\
  forall j, j < n -> largest_abs l j (cmp_ (es_max s) j) /\ cmp_ (es_sum s) j = sum_abs l j /\ cmp_ (es_sq s) j = sum_squares l j.
Proof.
  intros SA. destruct (run_ok n l (es_new n) SA) as (s & E & A & B & C & NN & K); try apply repeat_length. { cbn. split; [lia|reflexivity]. }
  exists s. split; [exact E|]. split; [exact A|]. split; [exact B|]. split; [exact C|]. split; [exact NN|].
  intros j Hj. destruct (K j Hj) as (M & S & Q). cbn [es_new es_max es_sum es_sq] in *. rewrite new_cmp in M, S, Q. destruct (maxabs_spec l j 0%Qc) as (P1 & P2 & P3). rewrite M, S, Q. split; [split; [exact P1|split; [exact P2|exact P3]]|split; ring].
Qed.
Lemma largest_unique l j m m' : largest_abs l j m -> largest_abs l j m' -> m = m'.
Proof.
  assert (W : forall m m', largest_abs l j m -> largest_abs l j m' -> (m <= m')%Qc).
  { intros a b (A1 & A2 & A3) (B1 & B2 & B3). destruct A3 as [->|(e & I & ->)]; [exact B1|exact (B2 e I)]. }
  intros A B. apply Qcle_antisym; apply W; assumption.
Qed.
Lemma estats_ext s s' n : length (es_max s) = n -> length (es_sum s) = n -> length (es_sq s) = n -> length (es_max s') = n -> length (es_sum s') = n -> length (es_sq s') = n -> es_n s = es_n s' ->
  (forall j, j < n -> cmp_ (es_max s) j = cmp_ (es_max s') j /\ cmp_ (es_sum s) j = cmp_ (es_sum s') j /\ cmp_ (es_sq s) j = cmp_ (es_sq s') j) -> s = s'.
Proof.
  destruct s as [a b c k], s' as [a' b' c' k']. cbn. intros A B C A' B' C' -> K. f_equal; apply (list_ext 0%Qc); try congruence; intros i Hi; destruct (K i) as (X & Y & Z); try lia; assumption.
Qed.
Lemma stats_merge n l1 l2 s1 s2 : samples n l1 -> samples n l2 -> es_run l1 (es_new n) = (s1, Ret tt) -> es_run l2 (es_new n) = (s2, Ret tt) ->
  exists s, es_merge s1 s2 = Ret s /\ es_run (l1 ++ l2) (es_new n) = (s, Ret tt).
Proof.
  intros S1 S2 R1 R2. destruct (stats_all n l1 S1) as (x1 & E1 & A1 & B1 & C1 & N1 & K1). destruct (stats_all n l2 S2) as (x2 & E2 & A2 & B2 & C2 & N2 & K2).
  rewrite E1 in R1. injection R1 as <-. rewrite E2 in R2. injection R2 as <-.
  destruct (stats_all n (l1 ++ l2)) as (x & E & A & B & C & NN & K). { apply Forall_app. split; assumption. }
  destruct (zip_map2 Qcmaxb n (es_max x1) (es_max x2) A1 A2) as (mx & Z1 & L1 & M1). destruct (zip_map2 Qcplus n (es_sum x1) (es_sum x2) B1 B2) as (sm & Z2 & L2 & M2).
  destruct (zip_map2 Qcplus n (es_sq x1) (es_sq x2) C1 C2) as (sq & Z3 & L3 & M3).
  unfold es_merge. rewrite Z1. cbn [obind]. rewrite Z2. cbn [obind]. rewrite Z3. cbn [obind]. eexists. split; [reflexivity|]. rewrite E. f_equal.
  apply (estats_ext _ _ n); cbn [es_max es_sum es_sq es_n]; try assumption.
  - rewrite NN, N1, N2, app_length, Nat2Z.inj_add. rewrite <- Zplus_mod. reflexivity.
  - intros j Hj. destruct (K j Hj) as (P & Q & W). destruct (K1 j Hj) as (P1 & Q1 & W1). destruct (K2 j Hj) as (P2 & Q2 & W2).
    rewrite M1, M2, M3 by exact Hj. rewrite Q, W, Q1, W1, Q2, W2. unfold sum_abs, sum_squares. rewrite !map_app, !qsuml_app. split; [|split; reflexivity].
    apply (largest_unique (l1 ++ l2) j); [exact P|]. destruct P1 as (a1 & a2 & a3), P2 as (b1 & b2 & b3). split; [exact (Qcle_trans _ _ _ a1 (max_ge_l _ _))|]. split.
    + intros e I. apply in_app_or in I as [I|I]; [exact (Qcle_trans _ _ _ (a2 e I) (max_ge_l _ _))|exact (Qcle_trans _ _ _ (b2 e I) (max_ge_r _ _))].
    + destruct (max_or (cmp_ (es_max x1) j) (cmp_ (es_max x2) j)) as [-> | ->].
      * destruct a3 as [a3|(e & I & a3)]; [left; exact a3|right; exists e; split; [apply in_or_app; left; exact I|exact a3]].
      * destruct b3 as [b3|(e & I & b3)]; [left; exact b3|right; exists e; split; [apply in_or_app; right; exact I|exact b3]].
Qed.
Lemma qsuml_perm a b : Permutation a b -> qsuml a = qsuml b.
Proof. induction 1; cbn [qsuml]; try congruence. ring. Qed.
Lemma stats_perm n l l' : samples n l -> Permutation l l' -> es_run l (es_new n) = es_run l' (es_new n).
Proof.
  intros S P. assert (S' : samples n l') by (eapply Permutation_Forall; eassumption).
  destruct (stats_all n l S) as (x & E & A & B & C & NN & K). destruct (stats_all n l' S') as (x' & E' & A' & B' & C' & NN' & K'). rewrite E, E'. f_equal.
  apply (estats_ext _ _ n); try assumption. { rewrite NN, NN', (Permutation_length P). reflexivity. }
  intros j Hj. destruct (K j Hj) as (P1 & Q & W). destruct (K' j Hj) as (P2 & Q' & W'). rewrite Q, Q', W, W'. split; [|split; apply qsuml_perm, Permutation_map; exact P].
  apply (largest_unique l' j); [|exact P2]. destruct P1 as (a & b & c). split; [exact a|]. split; [intros e I; apply b; eapply Permutation_in; [apply Permutation_sym; exact P|exact I]|].
  destruct c as [c|(e & I & c)]; [left; exact c|right; exists e; split; [eapply Permutation_in; eassumption|exact c]].
Qed.

(** mean *)
Definition qlen (k : nat) : Qc := Q2Qc (inject_Z (Z.of_nat k)).
Lemma qlen_S k : qlen (S k) = (qlen k + 1)%Qc.
Proof. unfold qlen. apply Qc_is_canon. rewrite this_plus, !this_Q2Qc. rewrite Nat2Z.inj_succ. unfold Z.succ. rewrite inject_Z_plus. reflexivity. Qed.
Lemma qlen_pos k : 0 < k -> (0 < qlen k)%Qc.
Proof. intros H. unfold qlen, Qclt. rewrite !this_Q2Qc. change (inject_Z 0 < inject_Z (Z.of_nat k))%Q. rewrite <- Zlt_Qlt. lia. Qed.
Lemma sum_nonneg l j : (0 <= sum_abs l j)%Qc.
Proof. unfold sum_abs. induction l as [|e l IH]; cbn [map qsuml]; [apply Qcle_refl|]. pose proof (Qcabs_nonneg (cmp_ e j)). qclra. Qed.
Lemma sum_le_max l j m : (forall e, In e l -> Qcabs (cmp_ e j) <= m)%Qc -> (sum_abs l j <= qlen (length l) * m)%Qc.
Proof.
  unfold sum_abs. induction l as [|e l IH]; intros H.
  - cbn. replace (qlen 0) with 0%Qc by (apply Qc_is_canon; reflexivity). replace (0 * m)%Qc with 0%Qc by ring. apply Qcle_refl.
  - cbn [map qsuml length]. rewrite qlen_S. assert (A := H e (or_introl eq_refl)). assert (B := IH (fun e' I => H e' (or_intror I))). replace ((qlen (length l) + 1) * m)%Qc with (m + qlen (length l) * m)%Qc by ring. apply Qcplus_le_compat; assumption.
Qed.
Lemma div_bounds a b m : (0 < b)%Qc -> (0 <= a)%Qc -> (a <= b * m)%Qc -> (0 <= a / b)%Qc /\ (a / b <= m)%Qc.
Proof.
  intros B A M. assert (E : (a / b * b = a)%Qc) by (apply Qcmult_div_l || (unfold Qcdiv; rewrite <- Qcmult_assoc, (Qcmult_comm (/ b)), Qcmult_inv_r by (intros Z; rewrite Z in B; discriminate B); ring)).
  generalize dependent (a / b)%Qc. intros d E. subst a. split; qcnra.
Qed.
Lemma mean_ok n l s : samples n l -> es_run l (es_new n) = (s, Ret tt) -> 0 < length l -> (Z.of_nat (length l) < UINT_MOD)%Z ->
  length (es_mean s) = n /\ forall j, j < n -> cmp_ (es_mean s) j = (sum_abs l j / Q2Qc (inject_Z (Z.of_nat (length l))))%Qc /\ (0 <= cmp_ (es_mean s) j)%Qc /\ (cmp_ (es_mean s) j <= cmp_ (es_max s) j)%Qc.
Proof.
  intros SA R HP HU. destruct (stats_all n l SA) as (x & E & A & B & C & NN & K). rewrite E in R. injection R as <-. rewrite Z.mod_small in NN by lia.
  split; [unfold es_mean; rewrite map_length; exact B|]. intros j Hj. destruct (K j Hj) as ((P1 & P2 & P3) & Q & W).
  assert (V : cmp_ (es_mean x) j = (sum_abs l j / Q2Qc (inject_Z (Z.of_nat (length l))))%Qc).
  { unfold es_mean. rewrite (cmp_map (fun x0 => x0 * (1 / Q2Qc (inject_Z (es_n x))))%Qc) by ring. rewrite Q, NN. unfold Qcdiv. ring. }
  rewrite V. split; [reflexivity|]. apply div_bounds; [apply (qlen_pos _ HP)|apply sum_nonneg|apply sum_le_max; exact P2].
Qed.
Lemma msd_ok n l s : samples n l -> es_run l (es_new n) = (s, Ret tt) -> 0 < length l -> (Z.of_nat (length l) < UINT_MOD)%Z ->
  exists v, es_msd2 s = Ret v /\ length v = n /\ forall j, j < n ->
    cmp_ v j = ((sum_abs l j * sum_abs l j + sum_squares l j) / Q2Qc (inject_Z (Z.of_nat (length l))))%Qc /\
    (cmp_ v j = (sum_squares l j / Q2Qc (inject_Z (Z.of_nat (length l))))%Qc <-> sum_abs l j = 0%Qc).
Proof.
  intros SA R HP HU. destruct (stats_all n l SA) as (x & E & A & B & C & NN & K). rewrite E in R. injection R as <-. rewrite Z.mod_small in NN by lia.
  destruct (zip_map2 Qcplus n (map sqr_ (es_sum x)) (es_sq x)) as (w & Z1 & L1 & M1); [rewrite map_length; exact B|exact C|].
  unfold es_msd2. rewrite Z1. cbn [obind]. eexists. split; [reflexivity|]. split; [rewrite map_length; exact L1|]. intros j Hj. destruct (K j Hj) as (_ & Q & W).
  rewrite (cmp_map (fun x0 => x0 * (1 / Q2Qc (inject_Z (es_n x))))%Qc) by ring. rewrite M1 by exact Hj. rewrite (cmp_map sqr_) by (unfold sqr_; ring). rewrite Q, W, NN.
  assert (LP := qlen_pos _ HP). unfold qlen in LP. set (b := Q2Qc (inject_Z (Z.of_nat (length l)))) in *. clearbody b. unfold sqr_.
  assert (NZ : b <> 0%Qc) by (intros Z; rewrite Z in LP; discriminate LP).
  split; [unfold Qcdiv; ring|]. split.
  - intros H. assert (G : (sum_abs l j * sum_abs l j = 0)%Qc).
    { assert (H' : ((sum_abs l j * sum_abs l j + sum_squares l j) * (1 / b) * b = sum_squares l j / b * b)%Qc) by (rewrite H; reflexivity).
      assert (I : (/ b * b = 1)%Qc) by (rewrite Qcmult_comm; apply Qcmult_inv_r; exact NZ). unfold Qcdiv in H'.
      replace ((sum_abs l j * sum_abs l j + sum_squares l j) * (1 * / b) * b)%Qc with ((sum_abs l j * sum_abs l j + sum_squares l j) * (/ b * b))%Qc in H' by ring.
      replace (sum_squares l j * / b * b)%Qc with (sum_squares l j * (/ b * b))%Qc in H' by ring. rewrite I in H'.
      replace (sum_abs l j * sum_abs l j)%Qc with ((sum_abs l j * sum_abs l j + sum_squares l j) * 1 - sum_squares l j * 1)%Qc by ring. rewrite H'. ring. }
    apply Qcmult_integral in G. tauto.
  - intros ->. unfold Qcdiv. ring.
Qed.
(** samples of another size *)
Lemma wrong_size n e s : length (es_max s) = n -> length (es_sum s) = n -> length (es_sq s) = n -> (snd (es_add e s) = Ret tt <-> length e = n) /\ (length e <> n -> snd (es_add e s) = Throw).
Proof.
  intros A B C. assert (T : length e <> n -> snd (es_add e s) = Throw).
  { intros H. unfold es_add. destruct (Nat.lt_ge_cases n (length e)) as [G|G].
    - rewrite (lzip_throw (N:=QcNum) Qcmaxb) by (rewrite map_length; change (nT QcNum) with Qc; lia). reflexivity.
    - rewrite (lzip_ok (N:=QcNum) Qcmaxb) by (rewrite map_length; change (nT QcNum) with Qc; lia). rewrite (lzip_throw (N:=QcNum) Qcplus) by (rewrite map_length; change (nT QcNum) with Qc; lia). reflexivity. }
  split; [|exact T]. split.
  - intros H. destruct (Nat.eq_dec (length e) n) as [Y|N]; [exact Y|]. rewrite (T N) in H. discriminate H.
  - intros H. destruct (add_ok n e s H A B C) as (s' & E & _). rewrite E. reflexivity.
Qed.

(** timings *)
Lemma timed_from l : forall s, (0 <= ts_time s < ULONG_MOD)%Z -> (0 <= ts_count s < UINT_MOD)%Z ->
  fold_left (fun s t => ts_add t s) l s = mkTs ((ts_time s + total l) mod ULONG_MOD) ((ts_count s + Z.of_nat (length l)) mod UINT_MOD).
Proof.
  induction l as [|t l IH]; intros s A B.
  - cbn. rewrite !Z.add_0_r, !Z.mod_small by assumption. destruct s; reflexivity.
  - cbn [fold_left]. rewrite IH.
    + cbn [ts_add ts_time ts_count]. rewrite !Zplus_mod_idemp_l. cbn [total fold_right length]. f_equal; f_equal; unfold total; lia.
    + cbn. apply Z.mod_pos_bound. reflexivity.
    + cbn. apply Z.mod_pos_bound. reflexivity.
Qed.
Lemma timed_ok l : timed l = mkTs (total l mod ULONG_MOD) (Z.of_nat (length l) mod UINT_MOD).
Proof. unfold timed. rewrite timed_from; cbn; try reflexivity; split; try lia; reflexivity. Qed.
Lemma total_app a b : total (a ++ b) = (total a + total b)%Z.
Proof. unfold total. induction a; cbn in *; lia. Qed.
Lemma timed_merge a b : ts_merge (timed a) (timed b) = timed (a ++ b).
Proof. rewrite !timed_ok. unfold ts_merge. cbn [ts_time ts_count]. rewrite <- !Zplus_mod, total_app, app_length, Nat2Z.inj_add. reflexivity. Qed.
Lemma timed_average l : 0 < length l -> (Z.of_nat (length l) < UINT_MOD)%Z -> (0 <= total l < ULONG_MOD)%Z ->
  let k := Z.of_nat (length l) in (ts_average (timed l) * k <= total l < (ts_average (timed l) + 1) * k)%Z.
Proof.
  intros A B C k. rewrite timed_ok. unfold ts_average. cbn [ts_time ts_count]. rewrite !Z.mod_small by lia. fold k.
  assert (K : (0 < k)%Z) by (unfold k; lia). rewrite (proj2 (Z.ltb_lt 0 k) K). pose proof (Z.div_mod (total l) k). pose proof (Z.mod_pos_bound (total l) k K). nia.
Qed.

(** modp, roundi, modd *)
Lemma modp_ok x m : (INT_MIN < x <= INT_MAX)%Z -> (0 < m < UINT_MOD)%Z -> exists r, modp x m = Ret r /\ (0 <= r < m)%Z /\ exists k, (x = k * m + r)%Z.
Proof.
  intros X M. unfold modp. rewrite (proj2 (Z.eqb_neq m 0)) by lia. destruct (Z.ltb_spec x 0) as [H|H].
  - rewrite (proj2 (Z.eqb_neq x INT_MIN)) by lia. pose proof (Z.mod_pos_bound (- x) m ltac:(lia)) as P. pose proof (Z.div_mod (- x) m ltac:(lia)) as D.
    eexists. split; [reflexivity|]. rewrite (Z.mod_small (m - (- x) mod m)) by lia. destruct (Z.eqb_spec (m - (- x) mod m) m) as [E|E].
    + split; [lia|]. exists (- ((- x) / m))%Z. nia.
    + split; [lia|]. exists (- ((- x) / m) - 1)%Z. nia.
  - eexists. split; [reflexivity|]. split; [apply Z.mod_pos_bound; lia|]. exists (x / m)%Z. pose proof (Z.div_mod x m ltac:(lia)). nia.
Qed.
Lemma cast_ok q r : cast_int q = Ret r <-> (r <= INT_MAX)%Z /\ (inject_Z r <= q < inject_Z r + 1)%Q.
Proof.
  unfold cast_int. destruct (Z.ltb_spec INT_MAX (Qfloor q)) as [H|H].
  - split; [discriminate|]. intros (A & B & C). exfalso. assert (Qfloor q < r + 1)%Z; [|lia]. rewrite Zlt_Qlt. rewrite inject_Z_plus. eapply Qle_lt_trans; [apply Qfloor_le|exact C].
  - split.
    + intros E. injection E as <-. split; [exact H|]. split; [apply Qfloor_le|]. pose proof (Qlt_floor q). rewrite inject_Z_plus in H0. exact H0.
    + intros (A & B & C). f_equal. pose proof (Qfloor_le q). pose proof (Qlt_floor q) as F. rewrite inject_Z_plus in F.
      assert (inject_Z (Qfloor q) < inject_Z (r + 1))%Q by (rewrite inject_Z_plus; change (inject_Z 1) with 1%Q; lra). assert (inject_Z r < inject_Z (Qfloor q + 1))%Q by (rewrite inject_Z_plus; change (inject_Z 1) with 1%Q in *; lra).
      rewrite <- Zlt_Qlt in *. lia.
Qed.
Lemma iz_lt a b : (inject_Z a < inject_Z b)%Q <-> (a < b)%Z. Proof. rewrite <- Zlt_Qlt. reflexivity. Qed.
Lemma roundi_ok x r : (Qabs.Qabs x < 4294967295 # 2)%Q -> roundi x = Ret r <-> (Qabs.Qabs (x - inject_Z r) <= 1 # 2)%Q /\ ((Qabs.Qabs (x - inject_Z r) == 1 # 2)%Q -> (Qabs.Qabs x <= Qabs.Qabs (inject_Z r))%Q).
Proof.
  intros B. rewrite Qabs.Qabs_Qlt_condition in B.
  destruct B as [B1 B2]. unfold roundi.
  assert (N : (x < 0)%Q -> forall k, cast_int (- x + (1 # 2)) = Ret k -> (0 <= k)%Z).
  { intros X k E. apply cast_ok in E as (_ & E1 & E2). assert (inject_Z (-1) < inject_Z k)%Q by (change (inject_Z (-1)) with (-1)%Q; lra). apply (proj1 (iz_lt _ _)) in H. lia. }
  destruct (Qle_bool 0 x) eqn:S.
  - apply Qle_bool_iff in S. rewrite cast_ok. split.
    + intros (A & C & D). assert (P : (0 <= inject_Z r)%Q). { assert (inject_Z (-1) < inject_Z r)%Q by (change (inject_Z (-1)) with (-1)%Q; lra). apply (proj1 (iz_lt _ _)) in H. assert (0 <= r)%Z by lia. rewrite Zle_Qle in H0. exact H0. }
      split; [apply Qabs.Qabs_Qle_condition; split; lra|]. intros T. rewrite (Qabs.Qabs_pos x) by lra. rewrite (Qabs.Qabs_pos (inject_Z r)) by lra. 
      destruct (Qlt_le_dec (x - inject_Z r) 0) as [G|G]; [lra|]. rewrite Qabs.Qabs_pos in T by exact G. lra.
    + intros (A & T). apply Qabs.Qabs_Qle_condition in A. assert (P : (0 <= inject_Z r)%Q). { assert (inject_Z (-1) < inject_Z r)%Q by (change (inject_Z (-1)) with (-1)%Q; lra). apply (proj1 (iz_lt _ _)) in H. assert (0 <= r)%Z by lia. rewrite Zle_Qle in H0. exact H0. }
      assert (D : (x + (1 # 2) < inject_Z r + 1)%Q). { destruct (Qlt_le_dec (x - inject_Z r) (1 # 2)) as [G|G]; [lra|]. rewrite (Qabs.Qabs_pos x), (Qabs.Qabs_pos (inject_Z r)) in T by lra. assert (Z : (Qabs.Qabs (x - inject_Z r) == 1 # 2)%Q) by (rewrite Qabs.Qabs_pos by lra; lra). specialize (T Z). lra. }
      split; [|split; lra]. assert (inject_Z r < inject_Z (INT_MAX + 1))%Q by (rewrite inject_Z_plus; change (inject_Z INT_MAX) with (2147483647 # 1)%Q; change (inject_Z 1) with 1%Q; lra). apply (proj1 (iz_lt _ _)) in H. lia.
  - assert (X : (x < 0)%Q). { destruct (Qlt_le_dec x 0) as [G|G]; [exact G|]. apply Qle_bool_iff in G. congruence. } clear S.
    transitivity (cast_int (- x + (1 # 2)) = Ret (- r)%Z).
    { destruct (cast_int (- x + (1 # 2))) as [k| |]; cbn [obind]; split; try discriminate; intros E; injection E as E; f_equal; lia. }
    split.
    + intros E. pose proof (N X _ E) as P. apply cast_ok in E as (A & C & D). rewrite inject_Z_opp in C, D. rewrite Zle_Qle, inject_Z_opp in P. change (inject_Z 0) with 0%Q in P.
      split; [apply Qabs.Qabs_Qle_condition; split; lra|]. intros T. rewrite (Qabs.Qabs_neg x) by lra. rewrite (Qabs.Qabs_neg (inject_Z r)) by lra.
      destruct (Qlt_le_dec 0 (x - inject_Z r)) as [G|G]; [lra|]. rewrite Qabs.Qabs_neg in T by exact G. lra.
    + intros (A & T). apply Qabs.Qabs_Qle_condition in A. assert (P : (inject_Z r <= 0)%Q). { assert (inject_Z r < inject_Z 1)%Q by (change (inject_Z 1) with 1%Q; lra). apply (proj1 (iz_lt _ _)) in H. assert (r <= 0)%Z by lia. rewrite Zle_Qle in H0. exact H0. }
      assert (D : (- x + (1 # 2) < - inject_Z r + 1)%Q). { destruct (Qlt_le_dec (- (x - inject_Z r)) (1 # 2)) as [G|G]; [lra|]. rewrite (Qabs.Qabs_neg x), (Qabs.Qabs_neg (inject_Z r)) in T by lra. assert (Z : (Qabs.Qabs (x - inject_Z r) == 1 # 2)%Q) by (rewrite Qabs.Qabs_neg by lra; lra). specialize (T Z). lra. }
      apply cast_ok. rewrite inject_Z_opp. split; [|split; lra]. assert (inject_Z (- r) < inject_Z (INT_MAX + 1))%Q by (rewrite inject_Z_plus, inject_Z_opp; change (inject_Z INT_MAX) with (2147483647 # 1)%Q; change (inject_Z 1) with 1%Q; lra). apply (proj1 (iz_lt _ _)) in H. lia.
Qed.
Lemma modd_ok x p b : (0 < p)%Q -> (b <= modd x p b < b + p)%Q /\ exists k : Z, (x - modd x p b == inject_Z k * p)%Q.
Proof.
  intros P. unfold modd. set (y := (x - b)%Q). pose proof (Qfloor_le (y / p)) as A. pose proof (Qlt_floor (y / p)) as B. rewrite inject_Z_plus in B. change (inject_Z 1) with 1%Q in B.
  assert (E : (y == (y / p) * p)%Q) by (field; lra). set (z := (y / p)%Q) in *. set (k := Qfloor z) in *. split.
  - split; [assert (0 <= (z - inject_Z k) * p)%Q by (apply Qmult_le_0_compat; lra); lra|]. assert (0 < (inject_Z k + 1 - z) * p)%Q by (apply Qmult_lt_0_compat; lra). lra.
  - exists k. unfold y. ring.
Qed.
