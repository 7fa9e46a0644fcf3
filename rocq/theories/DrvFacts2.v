(** DrvFacts2.v - proofs for C46. *)
From Coq Require Import List Arith Bool ZArith QArith Qcanon Lia Lqa.
From Verif Require Import Base BaseFacts VOps SpModel RkModel RkSpec RkFacts RkFacts3 RkFacts4 RkFacts5 RkFacts6 NewtFacts ExtFacts UtilModel UtilFacts OutModel OutSpec OutFacts DrvModel DrvSpec DrvFacts.
Import ListNotations.
Local Open Scope nat_scope.

(** * powers of u + y as polynomials in y *)
Fixpoint bi (u : Qc) (m k : nat) : Qc :=
  match m with
  | O => match k with O => 1%Qc | _ => 0%Qc end
  | Datatypes.S m' => (u * bi u m' k + match k with O => 0 | Datatypes.S k' => bi u m' k' end)%Qc
  end.
Lemma bi_zero u m : forall k, m < k -> bi u m k = 0%Qc.
Proof. induction m as [|m IH]; intros [|k] H; try lia; cbn [bi]; [reflexivity|]. rewrite !IH by lia. ring. Qed.
Lemma bi_lead u m : bi u m m = 1%Qc.
Proof. induction m as [|m IH]; [reflexivity|]. cbn [bi]. rewrite IH, bi_zero by lia. ring. Qed.
Lemma bi_pow u y m : qpow (u + y) m = qsum (S m) (fun k => bi u m k * qpow y k)%Qc.
Proof.
  induction m as [|m IH]; [cbn; ring|]. cbn [qpow]. rewrite IH. symmetry.
  rewrite (qsum_shift (S m)). rewrite (qsum_ext _ (fun i => bi u (S m) (S i) * qpow y (S i))%Qc (fun i => (u * (bi u m (S i) * qpow y (S i)) + y * (bi u m i * qpow y i))%Qc)) by (intros i Hi; cbn [bi qpow]; ring).
  rewrite qsum_add, !qsum_scale.
  replace (qsum (S m) (fun i => bi u m (S i) * qpow y (S i))%Qc) with (qsum (S m) (fun k => bi u m k * qpow y k)%Qc - bi u m 0)%Qc.
  - cbn [bi qpow]. ring.
  - pose proof (qsum_shift (S m) (fun k => bi u m k * qpow y k)%Qc) as Q. cbn [qsum] in Q |- *. rewrite (bi_zero u m (S m)) in * by lia. cbn [qpow] in *. 
    replace (qsum m (fun i => bi u m (S i) * (y * qpow y i))%Qc + 0 * (y * qpow y m))%Qc with (bi u m 0 * 1 + (qsum m (fun i => bi u m (S i) * (y * qpow y i)) + 0 * (y * qpow y m)) - bi u m 0)%Qc by ring. rewrite <- Q. ring.
Qed.
Lemma bi_deriv u m : forall k, (qn (S m) * bi u m k = qn (S k) * bi u (S m) (S k))%Qc.
Proof.
  induction m as [|m IH]; intros k.
  - destruct k as [|k]; cbn [bi]; ring.
  - change (bi u (S (S m)) (S k)) with (u * bi u (S m) (S k) + bi u (S m) k)%Qc.
    transitivity (u * (qn (S k) * bi u (S m) (S k)) + (qn k * bi u (S m) k + bi u (S m) k))%Qc; [|rewrite (qn_S k); ring].
    rewrite <- IH. destruct k as [|k].
    + cbn [bi]. rewrite (qn_S (S m)). replace (qn 0) with 0%Qc by reflexivity. ring.
    + rewrite <- (IH k). rewrite (qn_S (S m)). change (bi u (S m) (S k)) with (u * bi u m (S k) + bi u m k)%Qc. ring.
Qed.
Lemma bi_flow u h m : ((qpow (u + h) (S m) - qpow u (S m)) / qn (S m))%Qc = qsum (S m) (fun k => bi u m k * (qpow h (S k) / qn (S k)))%Qc.
Proof.
  assert (N : forall k, qn (S k) <> 0%Qc) by (intros k; apply qn_neq0; lia).
  rewrite (bi_pow u h (S m)). rewrite qsum_shift. assert (Z : bi u (S m) 0 = qpow u (S m)). { clear. induction m as [|m IH]; [cbn; ring|]. cbn [bi qpow] in *. rewrite IH. cbn [qpow]. ring. }
  rewrite Z. cbn [qpow]. unfold Qcdiv. replace (u * qpow u m * 1 + qsum (S m) (fun i => bi u (S m) (S i) * (h * qpow h i)) - u * qpow u m)%Qc with (qsum (S m) (fun i => bi u (S m) (S i) * (h * qpow h i)))%Qc by ring.
  rewrite <- qsum_scale_r. apply qsum_ext. intros k Hk. pose proof (bi_deriv u m k) as D.
  assert (E : bi u (S m) (S k) = (qn (S m) * bi u m k / qn (S k))%Qc) by (rewrite D; field; apply N). rewrite E. field. split; apply N.
Qed.
(** * the error of one step on powers *)
Definition cst (co : coeffs QcNum) (stages m : nat) : Qc := (qsum stages (fun s => B_ co stages 0 s * qpow (C_ co s) m) - 1 / qn (S m))%Qc.
Lemma cst_zero co stages p m : order_conditions co stages 0 p -> row_sums co stages -> m < p -> cst co stages m = 0%Qc.
Proof.
  intros OC RS H. unfold cst. pose proof (OC (Node (bushy m)) ltac:(rewrite order_Node, bushy_order; lia)) as E. rewrite density_Node, bushy_order, bushy_dens, Nat.mul_1_r in E. rewrite <- E. unfold weight.
  rewrite (qsum_ext _ (fun i => B_ co stages 0 i * stage_weight co (Node (bushy m)) i)%Qc (fun s => B_ co stages 0 s * qpow (C_ co s) m)%Qc); [ring|]. intros s Hs. rewrite stage_weight_Node, (bushy_weight co stages m s RS Hs). reflexivity.
Qed.
Lemma mono_error co stages u h m : (h * qsum stages (fun s => B_ co stages 0 s * qpow (u + h * C_ co s) m) - (qpow (u + h) (S m) - qpow u (S m)) / qn (S m))%Qc = qsum (S m) (fun k => bi u m k * (qpow h (S k) * cst co stages k))%Qc.
Proof.
  rewrite bi_flow. rewrite (qsum_ext stages _ (fun s => qsum (S m) (fun k => B_ co stages 0 s * (bi u m k * (qpow h k * qpow (C_ co s) k)))%Qc)).
  2:{ intros s Hs. rewrite bi_pow, <- qsum_scale. apply qsum_ext. intros k Hk. rewrite qpow_mul. reflexivity. }
  rewrite qsum_swap, <- qsum_scale, <- qsum_sub. apply qsum_ext. intros k Hk. unfold cst. cbn [qpow].
  rewrite (qsum_ext stages _ (fun s => (bi u m k * qpow h k) * (B_ co stages 0 s * qpow (C_ co s) k))%Qc) by (intros; ring). rewrite qsum_scale. unfold Qcdiv. ring.
Qed.
Lemma mono_small co stages p u h m : order_conditions co stages 0 p -> row_sums co stages -> m <= p ->
  (h * qsum stages (fun s => B_ co stages 0 s * qpow (u + h * C_ co s) m) = (qpow (u + h) (S m) - qpow u (S m)) / qn (S m) + if m =? p then qpow h (S p) * cst co stages p else 0)%Qc.
Proof.
  intros OC RS H. pose proof (mono_error co stages u h m) as E.
  assert (S_ : (qsum (S m) (fun k => bi u m k * (qpow h (S k) * cst co stages k)))%Qc = (if m =? p then qpow h (S p) * cst co stages p else 0)%Qc).
  { cbn [qsum]. rewrite (qsum_zero m). 2:{ intros k Hk. rewrite (cst_zero co stages p k OC RS) by lia. ring. } rewrite bi_lead. destruct (Nat.eqb_spec m p) as [->|NE]; [ring|]. rewrite (cst_zero co stages p m OC RS) by lia. ring. }
  rewrite S_ in E. rewrite <- E. ring.
Qed.
(** one textbook step on a polynomial right-hand side of degree p *)
Lemma poly_step co stages n p a c t h x t2 x2 : order_conditions co stages 0 p -> row_sums co stages -> textbook_step co stages n (poly_rhs n (S p) a c) h (t, x) (t2, x2) ->
  t2 = (t + h)%Qc /\ length x2 = n /\ forall i, i < n -> cmp_ x2 i = (cmp_ x i + poly_flow (S p) a c t h i + a i p * (qpow h (S p) * cst co stages p))%Qc.
Proof.
  intros OC RS [T (evals & k & [_ [_ TS]] & [LX R])]. cbn [fst snd] in *. split; [exact T|]. split; [exact LX|]. intros i Hi. rewrite (R i Hi). rewrite <- Qcplus_assoc. f_equal.
  rewrite (qsum_ext stages _ (fun s => qsum (S p) (fun m => a i m * (B_ co stages 0 s * qpow (t - c + h * C_ co s) m))%Qc)).
  2:{ intros s Hs. destruct (TS s Hs) as [arg [_ [F _]]]. unfold poly_rhs in F. assert (F2 : nth s k [] = map (fun i => qsum (S p) (fun k => a i k * qpow (t + h * C_ co s - c) k)%Qc) (seq 0 n)) by congruence. rewrite F2. unfold cmp_. rewrite (nth_map_seq n (fun i => qsum (S p) (fun k => a i k * qpow (t + h * C_ co s - c) k)%Qc) 0%Qc i Hi).
      rewrite <- qsum_scale. apply qsum_ext. intros m Hm. replace (t + h * C_ co s - c)%Qc with (t - c + h * C_ co s)%Qc by ring. ring. }
  rewrite qsum_swap, <- qsum_scale. unfold poly_flow.
  rewrite (qsum_ext (S p) _ (fun m => (a i m * ((qpow (t + h - c) (S m) - qpow (t - c) (S m)) / qn (S m)) + a i m * (if m =? p then qpow h (S p) * cst co stages p else 0))%Qc)).
  2:{ intros m Hm. rewrite qsum_scale. replace (t + h - c)%Qc with (t - c + h)%Qc by ring. rewrite <- Qcmult_plus_distr_r, <- (mono_small co stages p (t - c) h m OC RS) by lia. ring. }
  rewrite qsum_add. f_equal. cbn [qsum]. rewrite (qsum_zero p). 2:{ intros m Hm. destruct (Nat.eqb_spec m p); [lia|ring]. } rewrite Nat.eqb_refl. ring.
Qed.
Lemma flow_add deg a c t h k i : poly_flow deg a c t (h + k) i = (poly_flow deg a c t h i + poly_flow deg a c (t + h) k i)%Qc.
Proof. unfold poly_flow. rewrite <- qsum_add. apply qsum_ext. intros m Hm. replace (t + (h + k) - c)%Qc with (t + h + k - c)%Qc by ring. unfold Qcdiv. ring. Qed.
Lemma pow2_pos p : (0 < qpow2 p)%Qc.
Proof. unfold qpow2, Qclt. cbn [this Q2Qc]. rewrite !Qred_correct. change 0%Q with (inject_Z 0). rewrite <- Zlt_Qlt. apply Z.pow_pos_nonneg; lia. Qed.
Lemma pow2_S p : qpow2 (S p) = (qpow2 p + qpow2 p)%Qc.
Proof. unfold qpow2. apply Qc_is_canon. rewrite this_plus. cbn [this Q2Qc]. rewrite !Qred_correct, <- inject_Z_plus. rewrite Nat2Z.inj_succ, Z.pow_succ_r by lia. replace (2 * 2 ^ Z.of_nat p)%Z with (2 ^ Z.of_nat p + 2 ^ Z.of_nat p)%Z by lia. reflexivity. Qed.
Lemma pow2_gt p : 1 <= p -> (1 < qpow2 p)%Qc.
Proof. intros H. destruct p as [|p]; [lia|]. rewrite pow2_S. clear H. induction p as [|p IH]; [reflexivity|]. rewrite pow2_S. pose proof (pow2_pos p). qclra. Qed.
Lemma pow2_neq p : qpow2 p <> 0%Qc. Proof. intros E. pose proof (pow2_pos p) as H. rewrite E in H. exact (Qclt_not_eq _ _ H eq_refl). Qed.
Lemma pow2_m1 p : 1 <= p -> (qpow2 p - 1 <> 0)%Qc.
Proof. intros H E. pose proof (pow2_gt p H) as G. assert (X : qpow2 p = 1%Qc) by (replace (qpow2 p) with (qpow2 p - 1 + 1)%Qc by ring; rewrite E; ring). rewrite X in G. exact (Qclt_not_eq _ _ G eq_refl). Qed.
Lemma half2 : (qc 1 2 + qc 1 2 = 1)%Qc. Proof. apply Qc_is_canon. reflexivity. Qed.
Lemma half_pow h p : (qpow (qc 1 2 * h) p * qpow2 p = qpow h p)%Qc.
Proof.
  induction p as [|p IH]; [reflexivity|]. rewrite pow2_S. cbn [qpow]. rewrite <- IH. 
  transitivity ((qc 1 2 + qc 1 2) * h * (qpow (qc 1 2 * h) p * qpow2 p))%Qc; [ring|]. rewrite half2. ring.
Qed.
(** the reported error *)
Lemma error_comp p x1 x2 e : ric_error p x1 x2 = Ret e -> length e = length x1 /\ length x1 <= length x2 /\ forall i, i < length x1 -> cmp_ e i = ((cmp_ x1 i - cmp_ x2 i) * ric_factor p)%Qc.
Proof.
  unfold ric_error. intros E. destruct (lsub (N:=QcNum) x1 x2) as [d| |] eqn:D; cbn [obind] in E; try discriminate E. injection E as <-.
  pose proof (lzip_length (N:=QcNum) _ _ _ _ D) as L. pose proof (lzip_inv (N:=QcNum) _ _ _ _ D) as I. unfold lsub in D. rewrite (lzip_ok (N:=QcNum)) in D by exact I. injection D as D. rewrite map_length. split; [exact L|]. split; [exact I|]. intros i Hi. unfold cmp_.
  change (nT QcNum) with Qc in *. rewrite (nth_indep _ 0%Qc ((fun v : Qc => v * ric_factor p) 0)%Qc) by (rewrite map_length, L; exact Hi). rewrite (map_nth (fun v : Qc => v * ric_factor p)%Qc d 0%Qc i). rewrite <- D. f_equal. apply (nth_map_seq (length x1) (fun i => (nth i x1 0 - nth i x2 0)%Qc) 0%Qc i Hi).
Qed.
Lemma error_ok p x1 x2 : length x1 <= length x2 -> exists e, ric_error p x1 x2 = Ret e.
Proof. intros L. unfold ric_error, lsub. rewrite (lzip_ok (N:=QcNum)) by exact L. eexists. reflexivity. Qed.
Lemma error_throw p x1 x2 : length x2 < length x1 -> ric_error p x1 x2 = Throw.
Proof. intros L. unfold ric_error, lsub. rewrite (lzip_throw (N:=QcNum)) by exact L. reflexivity. Qed.
Lemma factor_ok p (E : Qc) : 1 <= p -> ((E / qpow2 p - E) * ric_factor p = - E)%Qc.
Proof. intros H. unfold ric_factor. field. split; [apply pow2_m1; exact H|apply pow2_neq]. Qed.
Theorem ric_exact p n x1 x2 xs d : 1 <= p -> length x1 = n -> length x2 = n -> length xs = n ->
  (forall i, i < n -> cmp_ x2 i = (cmp_ xs i + d i)%Qc /\ cmp_ x1 i = (cmp_ xs i + d i / qpow2 p)%Qc) ->
  exists e, ric_error p x1 x2 = Ret e /\ length e = n /\ forall i, i < n -> cmp_ e i = (cmp_ xs i - cmp_ x2 i)%Qc.
Proof.
  intros P L1 L2 LS H. destruct (error_ok p x1 x2) as (e & E); [lia|]. destruct (error_comp p x1 x2 e E) as (A & _ & B). exists e. split; [exact E|]. split; [lia|]. intros i Hi. rewrite B by lia. destruct (H i Hi) as [-> ->].
  replace (cmp_ xs i + d i / qpow2 p - (cmp_ xs i + d i))%Qc with (d i / qpow2 p - d i)%Qc by ring. rewrite factor_ok by exact P. ring.
Qed.
(** * the pass of a Runge-Kutta solver *)
Section Pass.
Context {W : Type} (f : W -> Qc -> list Qc -> Outcome (list Qc)) (co : coeffs QcNum) (stages n : nat) (w : W).
Hypothesis WF : wf_table co stages 1.
Hypothesis Last : co_last co = (-1)%Z.
Hypothesis GR : good_rhs (N:=QcNum) n (f w).
Lemma rk_pass p h t x s : rk_w (snd s) = w -> length x = n -> exists s' xm x1 x2 e, ric_pass (rk_ric no_events f co n) p h t x s = Ret (s', x1, Some e) /\ rk_w (snd s') = w /\
  textbook_step co stages n (f w) (qc 1 2 * h)%Qc (t, x) ((t + qc 1 2 * h)%Qc, xm) /\ textbook_step co stages n (f w) (qc 1 2 * h)%Qc ((t + qc 1 2 * h)%Qc, xm) ((t + h)%Qc, x1) /\
  textbook_step co stages n (f w) h (t, x) ((t + h)%Qc, x2) /\ ric_error p x1 x2 = Ret e.
Proof.
  intros EW LX. destruct s as [hs s]. cbn [snd] in EW. unfold ric_pass, ric_states, rk_ric. cbn [ri_set ri_step ri_size ri_get obind fst snd].
  set (s1 := rk_set (N:=QcNum) no_events t x s). assert (W1 : rk_w s1 = w) by exact EW. assert (G1 : good_rhs (N:=QcNum) n (f (rk_w s1))) by (rewrite W1; exact GR).
  assert (R1 : ready stages n (qc 1 2 * h)%Qc s1) by (split; [exact LX|left; reflexivity]).
  destruct (rk_step_ok f co stages n (qc 1 2 * h)%Qc WF Last s1 G1 R1) as (s2 & E2 & R2 & _ & W2 & T2). rewrite E2. cbn [obind fst snd watch existsb pa_changed pa_accepted pa_trunc negb orb].
  assert (G2 : good_rhs (N:=QcNum) n (f (rk_w s2))) by (rewrite W2; exact G1). destruct (rk_step_ok f co stages n (qc 1 2 * h)%Qc WF Last s2 G2 R2) as (s3 & E3 & R3 & _ & W3 & T3). rewrite E3. cbn [obind fst snd watch existsb pa_changed pa_accepted pa_trunc negb orb].
  set (s4 := rk_set (N:=QcNum) no_events t x s3). assert (W4 : rk_w s4 = w) by (change (rk_w s4) with (rk_w s3); congruence). assert (G4 : good_rhs (N:=QcNum) n (f (rk_w s4))) by (rewrite W4; exact GR).
  assert (R4 : ready stages n h s4) by (split; [exact LX|left; reflexivity]).
  destruct (rk_step_ok f co stages n h WF Last s4 G4 R4) as (s5 & E5 & R5 & _ & W5 & T5). rewrite E5. cbn [obind fst snd watch existsb pa_changed pa_accepted pa_trunc negb orb].
  assert (L3 : length (rk_x s3) = n) by (destruct R3; assumption). assert (L5 : length (rk_x s5) = n) by (destruct R5; assumption).
  destruct (error_ok p (rk_x s3) (rk_x s5)) as (e & E); [change (nT QcNum) with Qc in *; lia|]. change (nT QcNum) with Qc in *. rewrite E. cbn [obind]. exists (h, s5), (rk_x s2), (rk_x s3), (rk_x s5), e. split; [reflexivity|]. split; [cbn [snd]; congruence|].
  rewrite W1 in T2. rewrite W2, W1 in T3. rewrite W4 in T5.
  assert (A2 : rk_t s2 = (t + qc 1 2 * h)%Qc) by (destruct T2 as [T _]; exact T). assert (A3 : rk_t s3 = (t + h)%Qc). { destruct T3 as [T _]. cbn [fst] in T. rewrite T, A2. change (t + qc 1 2 * h + qc 1 2 * h = t + h)%Qc. replace (t + qc 1 2 * h + qc 1 2 * h)%Qc with (t + (qc 1 2 + qc 1 2) * h)%Qc by ring. rewrite half2. ring. }
  assert (A5 : rk_t s5 = (t + h)%Qc) by (destruct T5 as [T _]; exact T). change (nT QcNum) with Qc in *. rewrite A2 in T2, T3. rewrite A3 in T3. rewrite A5 in T5. split; [exact T2|]. split; [exact T3|]. split; [exact T5|exact E].
Qed.
End Pass.
Theorem ric_poly {W : Type} co stages n p a c h t x (s : Qc * rkst QcNum W) : wf_table co stages 1 -> co_last co = (-1)%Z -> 1 <= p -> order_conditions co stages 0 p -> row_sums co stages -> length x = n ->
  exists s' x1 x2 e, ric_pass (rk_ric no_events (fun _ : W => poly_rhs n (S p) a c) co n) p h t x s = Ret (s', x1, Some e) /\
    textbook_step co stages n (poly_rhs n (S p) a c) h (t, x) ((t + h)%Qc, x2) /\ length e = n /\ forall i, i < n -> cmp_ e i = ((cmp_ x i + poly_flow (S p) a c t h i) - cmp_ x2 i)%Qc.
Proof.
  intros WF LA P OC RS LX. destruct (rk_pass (fun _ : W => poly_rhs n (S p) a c) co stages n (rk_w (snd s)) WF LA (poly_good n (S p) a c) p h t x s eq_refl LX) as (s' & xm & x1 & x2 & e & E & _ & T1 & T2 & T3 & EE).
  exists s', x1, x2, e. split; [exact E|]. split; [exact T3|]. destruct (poly_step co stages n p a c _ _ _ _ _ OC RS T1) as (_ & LM & M). destruct (poly_step co stages n p a c _ _ _ _ _ OC RS T2) as (_ & L1 & M1). destruct (poly_step co stages n p a c _ _ _ _ _ OC RS T3) as (_ & L2 & M2).
  destruct (error_comp p x1 x2 e EE) as (LE & _ & C). split; [lia|]. intros i Hi. rewrite C by lia. rewrite M1, M by exact Hi.
  assert (HF : (poly_flow (S p) a c t h i = poly_flow (S p) a c t (qc 1 2 * h) i + poly_flow (S p) a c (t + qc 1 2 * h) (qc 1 2 * h) i)%Qc). { rewrite <- flow_add. f_equal. replace (qc 1 2 * h + qc 1 2 * h)%Qc with ((qc 1 2 + qc 1 2) * h)%Qc by ring. rewrite half2. ring. }
  set (D := (a i p * (qpow h (S p) * cst co stages p))%Qc).
  assert (HD : (a i p * (qpow (qc 1 2 * h) (S p) * cst co stages p) + a i p * (qpow (qc 1 2 * h) (S p) * cst co stages p) = D / qpow2 p)%Qc).
  { unfold D. rewrite <- (half_pow h (S p)), pow2_S. field. apply pow2_neq. }
  rewrite (M2 i Hi). fold D.
  match goal with |- (((?x0 + ?f1 + ?d) + ?f2 + ?d) - _)%Qc * _ = _ => idtac | _ => idtac end.
  transitivity ((D / qpow2 p - D) * ric_factor p)%Qc; [f_equal; rewrite HF, <- HD; ring|]. rewrite factor_ok by exact P. ring.
Qed.
(** * what a pass does with the reports of the observers *)
Section Gen.
Context {S : Type} (rs : ricsolver S).
Lemma watch_changed l : Exists (fun a => pa_changed (N:=QcNum) a = true) l -> watch l = Throw.
Proof. intros H. unfold watch. assert (E : existsb (fun a => pa_changed (N:=QcNum) a) l = true) by (apply existsb_exists; apply Exists_exists in H as (a & A & B); exists a; split; assumption). rewrite E. reflexivity. Qed.
Lemma watch_same l : Forall (fun a => pa_changed (N:=QcNum) a = false) l -> watch l = Ret (existsb (fun a => negb (pa_accepted (N:=QcNum) a) || pa_trunc (N:=QcNum) a) l).
Proof. intros H. unfold watch. destruct (existsb (fun a => pa_changed (N:=QcNum) a) l) eqn:E; [|reflexivity]. apply existsb_exists in E as (a & A & B). rewrite Forall_forall in H. rewrite (H a A) in B. discriminate B. Qed.
Lemma changed_dec (l : list (postarg QcNum)) : {Exists (fun a => pa_changed (N:=QcNum) a = true) l} + {Forall (fun a => pa_changed (N:=QcNum) a = false) l}.
Proof. induction l as [|a l IH]; [right; constructor|]. destruct (pa_changed a) eqn:E; [left; constructor; exact E|]. destruct IH as [I|I]; [left; right; exact I|right; constructor; assumption]. Qed.
Lemma pass_calls p h t x s s1 s2 s3 s4 s5 l1 l2 l3 : ri_set rs t x s = Ret s1 -> ri_step rs (ri_size rs (qc 1 2 * h)%Qc s1) = Ret (s2, l1) -> ri_step rs s2 = Ret (s3, l2) -> ri_set rs t x s3 = Ret s4 -> ri_step rs (ri_size rs h s4) = Ret (s5, l3) ->
  (Exists (fun a => pa_changed (N:=QcNum) a = true) (l1 ++ l2 ++ l3) -> ric_pass rs p h t x s = Throw) /\
  (undisturbed (l1 ++ l2 ++ l3) -> ric_pass rs p h t x s = (e <- ric_error p (ri_get rs s3) (ri_get rs s5) ;; Ret (s5, ri_get rs s3, Some e))) /\
  (Forall (fun a => pa_changed (N:=QcNum) a = false) (l1 ++ l2 ++ l3) -> Exists (fun a => pa_accepted (N:=QcNum) a = false \/ pa_trunc (N:=QcNum) a = true) (l1 ++ l2 ++ l3) -> ric_pass rs p h t x s = Ret (s5, ri_get rs s3, None)).
Proof.
  intros E1 E2 E3 E4 E5. unfold ric_pass, ric_states. rewrite E1. cbn [obind]. rewrite E2. cbn [obind fst snd].
  split; [|split].
  - intros H. destruct (changed_dec l1) as [A|A]; [rewrite (watch_changed _ A); reflexivity|]. rewrite (watch_same _ A). cbn [obind]. rewrite E3. cbn [obind fst snd].
    destruct (changed_dec l2) as [B|B]; [rewrite (watch_changed _ B); reflexivity|]. rewrite (watch_same _ B). cbn [obind]. rewrite E4. cbn [obind]. rewrite E5. cbn [obind fst snd].
    destruct (changed_dec l3) as [C|C]; [rewrite (watch_changed _ C); reflexivity|]. exfalso. apply Exists_exists in H as (a & IN & T). apply in_app_or in IN. rewrite Forall_forall in A, B, C. destruct IN as [IN|IN]; [|apply in_app_or in IN; destruct IN as [IN|IN]]; [rewrite (A a IN) in T|rewrite (B a IN) in T|rewrite (C a IN) in T]; discriminate T.
  - intros U. unfold undisturbed in U. rewrite !Forall_app in U. destruct U as (U1 & U2 & U3).
    assert (G : forall l, Forall (fun a : postarg QcNum => pa_accepted a = true /\ pa_trunc a = false /\ pa_changed a = false) l -> watch l = Ret false).
    { intros l U. rewrite watch_same; [|eapply Forall_impl; [|exact U]; intros a (_ & _ & X); exact X]. f_equal. induction U as [|a l (X & Y & Z) U IH]; [reflexivity|]. cbn [existsb]. rewrite X, Y, IH. reflexivity. }
    rewrite (G l1 U1). cbn [obind]. rewrite E3. cbn [obind fst snd]. rewrite (G l2 U2). cbn [obind]. rewrite E4. cbn [obind]. rewrite E5. cbn [obind fst snd]. rewrite (G l3 U3). cbn [obind orb]. reflexivity.
  - intros A B. rewrite !Forall_app in A. destruct A as (A1 & A2 & A3). rewrite (watch_same _ A1). cbn [obind]. rewrite E3. cbn [obind fst snd]. rewrite (watch_same _ A2). cbn [obind]. rewrite E4. cbn [obind]. rewrite E5. cbn [obind fst snd]. rewrite (watch_same _ A3). cbn [obind].
    rewrite <- !existsb_app, <- app_assoc. assert (X : existsb (fun a => negb (pa_accepted (N:=QcNum) a) || pa_trunc (N:=QcNum) a) (l1 ++ l2 ++ l3) = true). { apply existsb_exists. apply Exists_exists in B as (a & IN & C). exists a. split; [exact IN|]. destruct C as [-> | ->]; [reflexivity|apply orb_true_r]. }
    rewrite X. reflexivity.
Qed.
(** * the loop *)
Lemma reports_S h t0 k es : reports h t0 (1 + k) es = match es 0 with Some e => [((t0 + natQ 0 * h)%Qc, e)] | None => [] end ++ reports h (t0 + h)%Qc k (fun i => es (i + 1)).
Proof.
  unfold reports. cbn [Nat.add seq flat_map]. f_equal. rewrite <- seq_shift. rewrite flat_of_map. apply flat_map_ext. intros i. replace (i + 1) with (Datatypes.S i) by lia. destruct (es (Datatypes.S i)); [|reflexivity]. do 2 f_equal. rewrite natQ_S. ring.
Qed.
Lemma es_run_app l1 l2 s s1 : es_run l1 s = (s1, Ret tt) -> es_run (l1 ++ l2) s = es_run l2 s1.
Proof.
  revert s. induction l1 as [|e l IH]; intros s E; cbn [es_run app] in *; [injection E as <-; reflexivity|]. destruct (es_add e s) as [s0 [[]| |]]; try discriminate E. apply IH. exact E.
Qed.
Lemma ric_sound p h tend fuel : forall t x st s s' st' l, ric_loop rs fuel p h tend t x st s = Some (Ret (s', st', l)) ->
  exists k xs ss es, 1 <= k <= fuel /\ passes rs p h t x s k xs ss es /\ s' = ss k /\ l = reports h t k es /\ es_run (map snd l) st = (st', Ret tt) /\ (forall j, 1 <= j < k -> (t + natQ j * h < tend)%Qc) /\ (tend <= t + natQ k * h)%Qc.
Proof.
  induction fuel as [|f IH]; intros t x st s s' st' l E; [discriminate E|]. cbn [ric_loop] in E. destruct (ric_pass rs p h t x s) as [[[s1 x1] oe]| |] eqn:EP; try discriminate E.
  assert (G : exists st1 reps, es_run (map snd reps) st = (st1, Ret tt) /\ reps = match oe with Some e => [((t + natQ 0 * h)%Qc, e)] | None => [] end /\
    (if Qcltb (t + h)%Qc tend then match ric_loop rs f p h tend (t + h)%Qc x1 st1 s1 with Some (Ret (s2, st2, l)) => Some (Ret (s2, st2, reps ++ l)) | r => r end else Some (Ret (s1, st1, reps))) = Some (Ret (s', st', l))).
  { assert (Z : (t + natQ 0 * h = t)%Qc) by (rewrite natQ_0; ring). rewrite Z. destruct oe as [e|]; [|exists st, []; split; [reflexivity|]; split; [reflexivity|exact E]]. destruct (es_add e st) as [st1 [[]| |]] eqn:EA; try discriminate E. exists st1, [(t, e)]. split; [cbn [map snd es_run]; rewrite EA; reflexivity|]. split; [reflexivity|exact E]. }
  destruct G as (st1 & reps & ER & EQ & E1). clear E. destruct (Qcltb (t + h)%Qc tend) eqn:C.
  - destruct (ric_loop rs f p h tend (t + h)%Qc x1 st1 s1) as [[[[s2 st2] l2]| |]|] eqn:EL; try discriminate E1. injection E1 as -> -> <-. destruct (IH _ _ _ _ _ _ _ EL) as (k & xs & ss & es & K & (X0 & S0 & PP) & -> & EL2 & RUN & A & B).
    exists (1 + k), (fun i => match i with 0 => x | Datatypes.S j => xs j end), (fun i => match i with 0 => s | Datatypes.S j => ss j end), (fun i => match i with 0 => oe | Datatypes.S j => es j end).
    split; [lia|]. split; [split; [reflexivity|split; [reflexivity|]]|].
    { intros [|i] Hi; cbn [Nat.add]; [rewrite X0, S0, natQ_0; replace (t + 0 * h)%Qc with t by ring; exact EP|]. replace (t + natQ (Datatypes.S i) * h)%Qc with (t + h + natQ i * h)%Qc by (rewrite natQ_S; ring). apply PP. lia. }
    split; [reflexivity|]. split; [rewrite reports_S; rewrite EQ; f_equal; rewrite EL2; unfold reports; apply flat_map_ext; intros i; replace (i + 1) with (Datatypes.S i) by lia; reflexivity|].
    split; [rewrite map_app, (es_run_app _ _ _ _ ER); exact RUN|]. split.
    + intros j Hj. destruct j as [|[|j]]; [lia| |]; [replace (t + natQ 1 * h)%Qc with (t + h)%Qc by (replace (natQ 1) with 1%Qc by reflexivity; ring); apply Qcltb_lt; exact C|]. rewrite natQ_S. replace (t + (natQ (Datatypes.S j) + 1) * h)%Qc with (t + h + natQ (Datatypes.S j) * h)%Qc by ring. apply A. lia.
    + cbn [Nat.add]. rewrite natQ_S. replace (t + (natQ k + 1) * h)%Qc with (t + h + natQ k * h)%Qc by ring. exact B.
  - injection E1 as <- <- <-. exists 1, (fun i => match i with 0 => x | _ => x1 end), (fun i => match i with 0 => s | _ => s1 end), (fun _ => oe). split; [lia|]. split; [split; [reflexivity|split; [reflexivity|]]|].
    { intros [|i] Hi; [|lia]. rewrite natQ_0. replace (t + 0 * h)%Qc with t by ring. exact EP. }
    split; [reflexivity|]. split; [rewrite (reports_S h t 0); cbn [reports seq flat_map]; rewrite app_nil_r; exact EQ|]. split; [exact ER|]. split; [lia|]. replace (natQ 1) with 1%Qc by reflexivity. replace (t + 1 * h)%Qc with (t + h)%Qc by ring. apply Qcltb_ge. exact C.
Qed.
Lemma ric_complete p h tend k : forall fuel t x st s xs ss es st', 1 <= k <= fuel -> passes rs p h t x s k xs ss es -> es_run (map snd (reports h t k es)) st = (st', Ret tt) -> (forall j, 1 <= j < k -> (t + natQ j * h < tend)%Qc) -> (tend <= t + natQ k * h)%Qc ->
  ric_loop rs fuel p h tend t x st s = Some (Ret (ss k, st', reports h t k es)).
Proof.
  induction k as [|k IH]; intros fuel t x st s xs ss es st' K (X0 & S0 & PP) RUN A B; [lia|]. destruct fuel as [|f]; [lia|]. cbn [ric_loop]. pose proof (PP 0 ltac:(lia)) as P0. rewrite natQ_0 in P0. replace (t + 0 * h)%Qc with t in P0 by ring. rewrite X0, S0 in P0. rewrite P0. cbn [Nat.add].
  change (Datatypes.S k) with (1 + k) in RUN. rewrite reports_S in RUN. change (Datatypes.S k) with (1 + k). rewrite (reports_S h t k es).
  assert (Z : (t + natQ 0 * h = t)%Qc) by (rewrite natQ_0; ring). rewrite Z in *.
  set (r0 := match es 0 with Some e => [(t, e)] | None => [] end) in *.
  assert (G : exists st1, es_run (map snd r0) st = (st1, Ret tt) /\ es_run (map snd (reports h (t + h)%Qc k (fun i => es (i + 1)))) st1 = (st', Ret tt)).
  { unfold r0 in *. destruct (es 0) as [e|]; [|exists st; split; [reflexivity|exact RUN]]. cbn [map snd app es_run] in *. destruct (es_add e st) as [st1 [[]| |]]; try discriminate RUN. exists st1. split; [reflexivity|exact RUN]. }
  destruct G as (st1 & G1 & G2).
  assert (N : (if Qcltb (t + h)%Qc tend then match ric_loop rs f p h tend (t + h)%Qc (xs 1) st1 (ss 1) with Some (Ret (s2, st2, l)) => Some (Ret (s2, st2, r0 ++ l)) | r => r end else Some (Ret (ss 1, st1, r0))) = Some (Ret (ss (1 + k), st', r0 ++ reports h (t + h)%Qc k (fun i => es (i + 1))))).
  { destruct k as [|k].
    - replace (natQ 1) with 1%Qc in B by reflexivity. replace (t + 1 * h)%Qc with (t + h)%Qc in B by ring. apply Qcltb_ge in B. rewrite B. cbn [reports seq flat_map map es_run] in *. injection G2 as <-. rewrite app_nil_r. reflexivity.
    - assert (A1 : (t + h < tend)%Qc) by (specialize (A 1 ltac:(lia)); replace (natQ 1) with 1%Qc in A by reflexivity; replace (t + 1 * h)%Qc with (t + h)%Qc in A by ring; exact A). rewrite (proj2 (Qcltb_lt _ _) A1).
      rewrite (IH f (t + h)%Qc (xs 1) st1 (ss 1) (fun i => xs (i + 1)) (fun i => ss (i + 1)) (fun i => es (i + 1)) st').
      + replace (Datatypes.S k + 1) with (1 + Datatypes.S k) by lia. reflexivity.
      + lia.
      + split; [reflexivity|]. split; [reflexivity|]. intros i Hi. replace (t + h + natQ i * h)%Qc with (t + natQ (i + 1) * h)%Qc by (replace (i + 1) with (Datatypes.S i) by lia; rewrite natQ_S; ring). apply PP. lia.
      + exact G2.
      + intros j Hj. replace (t + h + natQ j * h)%Qc with (t + natQ (Datatypes.S j) * h)%Qc by (rewrite natQ_S; ring). apply A. lia.
      + replace (t + h + natQ (Datatypes.S k) * h)%Qc with (t + natQ (Datatypes.S (Datatypes.S k)) * h)%Qc by (rewrite (natQ_S (Datatypes.S k)); ring). exact B. }
  unfold r0 in *. destruct (es 0) as [e|].
  - cbn [map snd es_run] in G1. destruct (es_add e st) as [st2 [[]| |]]; try discriminate G1. injection G1 as ->. exact N.
  - cbn [map es_run] in G1. injection G1 as ->. exact N.
Qed.
Lemma ric_iff p h T t0 fuel s s' st l : calculateError rs fuel p T h t0 s = Some (Ret (s', st, l)) <->
  exists k xs ss es, k <= fuel /\ steps_to_cover T h k /\ passes rs p h t0 (ri_get rs s) s k xs ss es /\ s' = ss k /\ l = reports h t0 k es /\ es_run (map snd l) (es_new (length (ri_get rs s))) = (st, Ret tt).
Proof.
  unfold calculateError. split.
  - intros E. destruct (ric_sound _ _ _ _ _ _ _ _ _ _ _ E) as (k & xs & ss & es & K & PP & -> & -> & RUN & A & B). exists k, xs, ss, es. split; [lia|]. split; [split; [lia|split]|]. { intros j Hj. specialize (A j Hj). qclra. } { qclra. }
    split; [exact PP|]. split; [reflexivity|]. split; [reflexivity|exact RUN].
  - intros (k & xs & ss & es & K & (K1 & A & B) & PP & -> & -> & RUN). eapply ric_complete; [lia|exact PP|exact RUN| |]. { intros j Hj. specialize (A j Hj). qclra. } { qclra. }
Qed.
End Gen.
(** * complete runs of a Runge-Kutta solver *)
Section Runs.
Context {W : Type} (f : W -> Qc -> list Qc -> Outcome (list Qc)) (co : coeffs QcNum) (stages n : nat) (w : W).
Hypothesis WF : wf_table co stages 1.
Hypothesis Last : co_last co = (-1)%Z.
Hypothesis GR : good_rhs (N:=QcNum) n (f w).
Notation rs := (rk_ric no_events f co n).
Lemma pass_inv p h t x s : rk_w (snd s) = w -> length x = n -> exists s' x1 e, ric_pass rs p h t x s = Ret (s', x1, Some e) /\ rk_w (snd s') = w /\ length x1 = n /\ length e = n.
Proof.
  intros A B. destruct (rk_pass f co stages n w WF Last GR p h t x s A B) as (s' & xm & x1 & x2 & e & E & WW & _ & T2 & _ & EE). exists s', x1, e. split; [exact E|]. split; [exact WW|].
  destruct T2 as [_ (ev & k & _ & [L _])]. cbn [snd] in L. split; [exact L|]. destruct (error_comp p x1 x2 e EE) as (LE & _). lia.
Qed.
Lemma many p h : forall k t x s, rk_w (snd s) = w -> length x = n -> exists xs ss es, passes rs p h t x s k xs ss es /\ (forall i, i < k -> exists e, es i = Some e /\ length e = n).
Proof.
  induction k as [|k IH]; intros t x s A B.
  - exists (fun _ => x), (fun _ => s), (fun _ => None). split; [split; [reflexivity|split; [reflexivity|lia]]|lia].
  - destruct (pass_inv p h t x s A B) as (s1 & x1 & e & E & A1 & B1 & C1). destruct (IH (t + h)%Qc x1 s1 A1 B1) as (xs & ss & es & (X0 & S0 & PP) & Q).
    exists (fun i => match i with 0 => x | S j => xs j end), (fun i => match i with 0 => s | S j => ss j end), (fun i => match i with 0 => Some e | S j => es j end). split; [split; [reflexivity|split; [reflexivity|]]|].
    + intros [|i] Hi; cbn [Nat.add]; [rewrite X0, S0, natQ_0; replace (t + 0 * h)%Qc with t by ring; exact E|]. replace (t + natQ (S i) * h)%Qc with (t + h + natQ i * h)%Qc by (rewrite natQ_S; ring). apply PP. lia.
    + intros [|i] Hi; [exists e; split; [reflexivity|exact C1]|apply Q; lia].
Qed.
Lemma run_ok l : forall st, length (es_max st) = n -> length (es_sum st) = n -> length (es_sq st) = n -> Forall (fun e => length e = n) l -> exists st', es_run l st = (st', Ret tt).
Proof.
  induction l as [|e l IH]; intros st A B C H; [exists st; reflexivity|]. inversion H as [|? ? H1 H2]. cbn [es_run]. destruct (UtilFacts.add_ok n e st H1 A B C) as (s' & E & A' & B' & C' & _). rewrite E. apply IH; assumption.
Qed.
Theorem rk_run p h T t0 s k fuel : rk_w (snd s) = w -> length (rk_x (snd s)) = n -> steps_to_cover T h k -> k <= fuel ->
  exists s' st l, calculateError rs fuel p T h t0 s = Some (Ret (s', st, l)) /\ length l = k /\ (forall i, i < k -> exists e, nth_error l i = Some ((t0 + natQ i * h)%Qc, e) /\ length e = n).
Proof.
  intros A B CV F. destruct (many p h k t0 (rk_x (snd s)) s A B) as (xs & ss & es & PP & Q).
  assert (RL : forall t, length (reports h t k es) = k /\ forall i, i < k -> exists e, nth_error (reports h t k es) i = Some ((t + natQ i * h)%Qc, e) /\ length e = n).
  { intros t. clear -Q. assert (G : reports h t k es = map (fun i => ((t + natQ i * h)%Qc, match es i with Some e => e | None => [] end)) (seq 0 k)).
    { unfold reports. rewrite <- flat_one. rewrite !flat_map_concat_map. f_equal. apply map_ext_in. intros i Hi. apply in_seq in Hi. destruct (Q i ltac:(lia)) as (e & -> & _). reflexivity. }
    rewrite G. split; [rewrite map_length, seq_length; reflexivity|]. intros i Hi. destruct (Q i Hi) as (e & E & L). exists e. split; [|exact L]. rewrite (map_nth_error _ i (seq 0 k) (d := i)); [rewrite E; reflexivity|]. rewrite (nth_error_nth' _ 0) by (rewrite seq_length; exact Hi). rewrite seq_nth by exact Hi. reflexivity. }
  destruct (RL t0) as [L1 L2]. destruct (run_ok (map snd (reports h t0 k es)) (es_new n)) as (st & RUN).
  { cbn. apply repeat_length. } { cbn. apply repeat_length. } { cbn. apply repeat_length. }
  { apply Forall_forall. intros e IN. apply in_map_iff in IN as ([u e'] & <- & IN). apply In_nth_error in IN as (i & IN). assert (Hi : i < k) by (rewrite <- L1; apply nth_error_Some; rewrite IN; discriminate). destruct (L2 i Hi) as (e2 & E2 & L). rewrite E2 in IN. injection IN as _ <-. exact L. }
  exists (ss k), st, (reports h t0 k es). split; [|split; assumption]. apply (proj2 (ric_iff rs p h T t0 fuel s (ss k) st (reports h t0 k es))). exists k, xs, ss, es. split; [exact F|]. split; [exact CV|]. split; [exact PP|]. split; [reflexivity|]. split; [reflexivity|]. unfold rk_ric at 1. cbn [ri_get]. change (nT QcNum) with Qc in *. rewrite B. exact RUN.
Qed.
Theorem rk_endless_run p h T t0 s : rk_w (snd s) = w -> length (rk_x (snd s)) = n -> (h <= 0)%Qc -> (0 < T)%Qc -> forall fuel, calculateError rs fuel p T h t0 s = None.
Proof.
  intros A B H TP fuel. unfold calculateError. assert (G : forall fuel t x st s tend, rk_w (snd s) = w -> length x = n -> length (es_max st) = n -> length (es_sum st) = n -> length (es_sq st) = n -> (t < tend)%Qc -> ric_loop rs fuel p h tend t x st s = None).
  { clear fuel s A B. induction fuel as [|g IH]; intros t x st s tend A B C D E L; [reflexivity|]. cbn [ric_loop]. destruct (pass_inv p h t x s A B) as (s1 & x1 & e & -> & A1 & B1 & C1). assert (L1 : (t + h < tend)%Qc) by qclra. rewrite (proj2 (Qcltb_lt _ _) L1). destruct (UtilFacts.add_ok n e st C1 C D E) as (st1 & -> & C2 & D2 & E2 & _). rewrite IH by assumption. reflexivity. }
  cbn [rk_ric ri_get]. change (nT QcNum) with Qc in *. rewrite B. apply G; [exact A|exact B| | | |]; [cbn; apply repeat_length|cbn; apply repeat_length|cbn; apply repeat_length|qclra].
Qed.
End Runs.
