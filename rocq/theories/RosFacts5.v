(** RosFacts5.v - the stages of the Rosenbrock methods and runs of the solvers. *)
From Coq Require Import List Arith Bool Lia ZArith QArith Qcanon.
From Verif Require Import Base BaseFacts VecModel VOps SMap SpModel SpSpec SpFacts LUSpec LUModel RkModel RkSpec StepModel RosModel RosSpec RkFacts NewtFacts ImpFacts RosFacts RosFacts2 RosFacts3 RosFacts4 OrdSpec OrdFacts OrdFacts2.
Import ListNotations.
Local Open Scope nat_scope.

Definition same (r r' : ros) : Prop := ro_n2 r' = ro_n2 r /\ ro_n1 r' = ro_n1 r /\ ro_mats r' = ro_mats r /\ ro_hd r' = ro_hd r /\ ro_lu r' = ro_lu r.
Lemma same_refl r : same r r. Proof. unfold same. auto. Qed.
Lemma same_trans a b c : same a b -> same b c -> same a c.
Proof. unfold same. intros (A & B & C & D & E) (A' & B' & C' & D' & E'). repeat split; congruence. Qed.
Lemma same_jac r r' : same r r' -> jac r' = jac r.
Proof. intros (A & B & C & _). unfold jac, J1_, J2_. rewrite A, C. reflexivity. Qed.
Lemma same_n r r' : same r r' -> ro_n r' = ro_n r /\ ro_m r' = ro_m r.
Proof. intros (A & B & _). unfold ro_n, ro_m. rewrite A, B. auto. Qed.
Definition ready (r : ros) (hw : Qc) : Prop := ros_inv r /\ ro_lu r = Some hw /\ solvable r hw /\ 0 < ro_m r.
Lemma ready_same r r' hw : ready r hw -> same r r' -> ros_inv r' -> ready r' hw.
Proof.
  intros (I & L & S & M) Q I'. destruct (same_n _ _ Q) as [_ QM]. pose proof Q as (A & B & C & D & E). split; [exact I'|]. split; [congruence|]. split; [|rewrite QM; exact M].
  unfold solvable, J1_, J2_ in *. rewrite QM, C. exact S.
Qed.

Lemma linSolve_any r (b : list Qc) hd hw : ros_inv r -> ro_n2 r = 0 -> ro_lu r = Some hw -> length b = ro_n r -> 0 < ro_m r -> ros_linSolve b hd r = ros_linSolve b hw r.
Proof.
  intros INV N2 EL LB MP. pose proof INV as (MO & CO & LC & PT).
  assert (LK : exists s, lookup hw (ro_cache r) = Some s).
  { destruct PT as [(A & B & C)|[A B]]; [congruence|]. assert (hw = ro_hd r) by congruence. subst hw. exact B. }
  destruct LK as [s LK].
  destruct (linSolve_red r INV b hd hw s LB MP EL LK) as (y & LY & VY & R). destruct (linSolve_red r INV b hw hw s LB MP EL LK) as (y' & LY' & VY' & R').
  assert (y = y').
  { apply (list_ext 0%Qc); [lia|]. intros i Hi. fold (cmp_ y i). fold (cmp_ y' i). rewrite VY, VY' by lia. rewrite N2. cbn [qsum]. ring. }
  subst y'. destruct (solve s y) as [[s' z]| |] eqn:SO; [|congruence|congruence].
  assert (LZ : length z = ro_m r) by (rewrite (solve_length _ _ _ _ SO); exact LY).
  destruct (R LZ) as (x & E & LX & _ & V). destruct (R' LZ) as (x' & E' & LX' & _ & V').
  rewrite E, E'. f_equal. f_equal. apply (list_ext 0%Qc); [lia|]. intros i Hi. rewrite N2 in V, V'. cbn [Nat.add] in V, V'. fold (cmp_ x i). fold (cmp_ x' i).
  assert (i < ro_m r) by (unfold ro_n in LX; unfold ro_m; lia). rewrite V, V' by assumption. reflexivity.
Qed.
Lemma solve_stage r hw hd (b : list Qc) : ready r hw -> hd = hw \/ ro_n2 r = 0 -> length b = ro_n r ->
  exists r' x, ros_linSolve b hd r = Ret (r', x) /\ ready r' hw /\ same r r' /\ length x = ro_n r /\ solves (ro_n r) (shifted hw (jac r)) (vfun x) (vfun b).
Proof.
  intros RD HH LB. pose proof RD as (INV & EL & SO & MP).
  assert (E0 : ros_linSolve b hd r = ros_linSolve b hw r) by (destruct HH as [->|N2]; [reflexivity|apply linSolve_any; assumption]).
  destruct (linSolve_ok r INV b hw EL SO LB MP) as (s' & x & E & I' & LX & SX). exists (after_solve r s'), x. rewrite E0. split; [exact E|].
  pose proof (linSolve_ret r b hw _ _ INV E) as (_ & Q). split; [|split; [exact Q|split; [exact LX|exact SX]]].
  apply (ready_same r); assumption.
Qed.

Section Stages.
Context {W : Type} (c : rcfg W) (f : Qc -> list Qc -> Outcome (list Qc)) (r0 : ros) (hw h t : Qc).
Let n := ro_n r0.
Let J := jac r0.
Hypothesis RD0 : ready r0 hw.
Hypothesis HH : (h * rc_d c = hw)%Qc \/ ro_n2 r0 = 0.
Hypothesis G : good_rhs (N:=QcNum) n f.
Lemma stage_solve r (b : list Qc) : ready r hw -> same r0 r -> length b = n ->
  exists r' x, q_solve c h b r = Ret (r', x) /\ ready r' hw /\ same r0 r' /\ length x = n /\ solves n (shifted hw J) (vfun x) (vfun b).
Proof.
  intros RD SM LB. destruct (same_n _ _ SM) as [QN QM]. pose proof SM as (N2 & _). unfold q_solve.
  destruct (solve_stage r hw (h * rc_d c)%Qc b RD) as (r' & x & E & RD' & SM' & LX & SX).
  { destruct HH as [Q|Q]; [left; exact Q|right; congruence]. } { rewrite QN. exact LB. }
  assert (Z : (ro_m r =? 0) = false) by (destruct RD as (_ & _ & _ & MP); apply Nat.eqb_neq; lia). rewrite Z. cbn [andb].
  exists r', x. rewrite QN in LX, SX. rewrite (same_jac _ _ SM) in SX. split; [exact E|]. split; [exact RD'|]. split; [exact (same_trans _ _ _ SM SM')|]. split; assumption.
Qed.
Lemma stage_mult r (dst x : list Qc) : ros_inv r -> same r0 r -> length dst = n -> length x = n ->
  exists y, ros_mult dst x r = Ret y /\ length y = n /\ forall i, i < n -> cmp_ y i = matvec n J x i.
Proof.
  intros I SM LD LX. destruct (same_n _ _ SM) as [QN QM]. destruct (mult_ok r I dst x) as (y & E & L & V); [rewrite QN; exact LD|rewrite QN; exact LX|]. exists y.
  rewrite QN in L, V. rewrite (same_jac _ _ SM) in V. auto.
Qed.
Lemma qcpy_ok (v : list Qc) : length v = n -> qcpy (zeros n) v = Ret v.
Proof. intros L. apply (vcpy_ok (N:=QcNum)). unfold zeros. etransitivity; [apply repeat_length|symmetry; exact L]. Qed.
Lemma qadd_ok (a b : list Qc) (k : Qc) : length a = n -> length b = n ->
  exists v, qadd a (qscale b k) = Ret v /\ length v = n /\ forall j, j < n -> cmp_ v j = (cmp_ a j + cmp_ b j * k)%Qc.
Proof.
  intros LA LB. destruct (ladd_cmp a (lscale (N:=QcNum) b k)) as (v & E & L & V).
  { rewrite length_scale. lia. } exists v. split; [exact E|]. split; [etransitivity; [exact L|exact LA]|]. intros j Hj. rewrite V by (rewrite LA; exact Hj). rewrite cmp_scale. reflexivity.
Qed.
Lemma shifted_ext hd (k b b' : nat -> Qc) : (forall j, j < n -> b j = b' j) -> solves n (shifted hd J) k b -> solves n (shifted hd J) k b'.
Proof. intros H S j Hj. rewrite <- H by exact Hj. apply S. exact Hj. Qed.
Lemma two_thirds (a : Qc) : (a * (1 + 1) / (1 + 1 + 1) = qc 2 3 * a)%Qc.
Proof. replace (qc 2 3) with ((1 + 1) / (1 + 1 + 1))%Qc by (apply Qc_is_canon; reflexivity). field. discriminate. Qed.
Lemma five_thirds (a : Qc) : (a * qc 5 1 / (1 + 1 + 1) = qc 5 3 * a)%Qc.
Proof. replace (qc 5 3) with (qc 5 1 / (1 + 1 + 1))%Qc by (apply Qc_is_canon; reflexivity). field. discriminate. Qed.

Lemma w1_next_ok (x f0 : list Qc) : length x = n -> length f0 = n ->
  exists r' k1 next, w1_next c n x f0 h r0 = Ret (r', next) /\ ready r' hw /\ same r0 r' /\ w1_formula n J hw x f0 h k1 next.
Proof.
  intros LX LF. unfold w1_next. rewrite qcpy_ok by exact LF. cbn [obind].
  destruct (stage_solve r0 f0 RD0 (same_refl _) LF) as (r' & k1 & E1 & R1 & S1 & L1 & V1). rewrite E1. cbn [obind fst snd]. rewrite qcpy_ok by exact LX. cbn [obind].
  destruct (qadd_ok x k1 h LX L1) as (nx & E2 & L2 & V2). rewrite E2. cbn [obind]. exists r', k1, nx. split; [reflexivity|]. split; [exact R1|]. split; [exact S1|].
  split; [exact L1|]. split; [exact L2|]. split; [exact V1|]. intros j Hj. rewrite V2 by exact Hj. ring.
Qed.
Lemma sw_stages_ok (x f0 : list Qc) : length x = n -> length f0 = n ->
  exists r' k1 k2 next, sw_stages c f n t x f0 h r0 = Ret (r', k1, k2, next) /\ ready r' hw /\ same r0 r' /\ sw_formula n J hw (h * rc_d c) f t x f0 h k1 k2 next.
Proof.
  intros LX LF. unfold sw_stages. rewrite qcpy_ok by exact LF. cbn [obind].
  destruct (stage_solve r0 f0 RD0 (same_refl _) LF) as (r1 & k1 & E1 & R1 & S1 & L1 & V1). rewrite E1. cbn [obind fst snd]. rewrite qcpy_ok by exact LX. cbn [obind].
  rewrite !two_thirds. destruct (qadd_ok x k1 (qc 2 3 * h)%Qc LX L1) as (y & E2 & L2 & V2). rewrite E2. cbn [obind].
  destruct (G (t + qc 2 3 * h)%Qc y L2) as (f2 & E3 & L3). change (nT QcNum) with Qc in *. rewrite E3. cbn [obind].
  destruct (stage_mult r1 y k1) as (jk & E4 & L4 & V4); [apply R1|exact S1|exact L2|exact L1|]. rewrite E4. cbn [obind].
  destruct (qadd_ok f2 jk (qc (-4) 3 * h * rc_d c)%Qc L3 L4) as (b2 & E5 & L5 & V5). rewrite E5. cbn [obind].
  destruct (stage_solve r1 b2 R1 S1 L5) as (r2 & k2 & E6 & R2 & S2 & L6 & V6). rewrite E6. cbn [obind fst snd].
  destruct (qadd_ok x k1 (qc 1 4 * h)%Qc LX L1) as (x1 & E7 & L7 & V7). rewrite E7. cbn [obind].
  destruct (qadd_ok x1 k2 (qc 3 4 * h)%Qc L7 L6) as (x2 & E8 & L8 & V8). rewrite E8. cbn [obind].
  exists r2, k1, k2, x2. split; [reflexivity|]. split; [exact R2|]. split; [exact S2|]. split; [exact L1|]. split; [exact L6|]. split; [exact L8|]. split; [exact V1|]. split.
  - exists y, f2. split; [exact L2|]. split; [intros j Hj; rewrite V2 by exact Hj; ring|]. split; [exact E3|].
    revert V6. apply shifted_ext. intros j Hj. unfold vfun. fold (cmp_ b2 j). rewrite V5, V4 by exact Hj. replace (qc (-4) 3) with (- qc 4 3)%Qc by (apply Qc_is_canon; reflexivity). ring.
  - intros j Hj. rewrite V8, V7 by exact Hj. ring.
Qed.
Lemma sw_error_ok r1 (k1 k2 next f1 : list Qc) : (forall v, exists e, rc_norm c v = Ret e) -> ready r1 hw -> same r0 r1 -> length k1 = n -> length k2 = n -> length next = n -> length f1 = n ->
  exists r' e est, sw_error c f n t h k1 k2 next f1 r1 = Ret (r', e) /\ ready r' hw /\ same r0 r' /\ rc_norm c est = Ret e /\ sw_estimate n J hw (h * rc_d c) f t h k1 k2 next f1 est.
Proof.
  intros NR RD SM L1 L2 LN LF. unfold sw_error. rewrite qcpy_ok by exact LF. cbn [obind].
  destruct (stage_solve r1 f1 RD SM LF) as (r3 & k3 & E1 & R3 & S3 & L3 & V3). rewrite E1. cbn [obind fst snd]. rewrite qcpy_ok by exact LN. cbn [obind].
  rewrite !two_thirds, !five_thirds. destruct (qadd_ok next k3 (qc 2 3 * h)%Qc LN L3) as (y & E2 & LY & VY). rewrite E2. cbn [obind].
  destruct (G (t + qc 5 3 * h)%Qc y LY) as (f4 & E3 & LF4). change (nT QcNum) with Qc in *. rewrite E3. cbn [obind].
  assert (LS : length (qscale k1 (qc 2 3)) = n) by (unfold qscale; etransitivity; [apply length_scale|exact L1]).
  rewrite qcpy_ok by exact LS. cbn [obind].
  destruct (qadd_ok (qscale k1 (qc 2 3)) k2 (qc 6 1) LS L2) as (dd & E4 & LD & VD). rewrite E4. cbn [obind].
  destruct (stage_mult r3 y dd) as (jd & E5 & LJ & VJ); [apply R3|exact S3|exact LY|exact LD|]. rewrite E5. cbn [obind].
  destruct (qadd_ok f4 jd (h * rc_d c)%Qc LF4 LJ) as (b4 & E6 & LB & VB). rewrite E6. cbn [obind].
  destruct (stage_solve r3 b4 R3 S3 LB) as (r4 & k4 & E7 & R4 & S4 & L4 & V4). rewrite E7. cbn [obind fst snd]. rewrite qcpy_ok by exact L3. cbn [obind].
  destruct (lsub_cmp k3 k2) as (e1 & E8 & LE1 & VE1); [rewrite L3, L2; apply le_n|]. unfold qsub at 1. change (nT QcNum) with Qc in *. rewrite E8. cbn [obind].
  destruct (ladd_cmp (lscale (N:=QcNum) e1 (qc 5 1)) k1) as (e2 & E9 & LE2 & VE2); [rewrite length_scale; change (nT QcNum) with Qc in *; lia|].
  unfold qadd at 1, qscale at 1. change (nT QcNum) with Qc in *. rewrite E9. cbn [obind]. rewrite length_scale in LE2, VE2.
  destruct (lsub_cmp e2 k4) as (e3 & E10 & LE3 & VE3); [change (nT QcNum) with Qc in *; lia|]. unfold qsub at 1. change (nT QcNum) with Qc in *. rewrite E10. cbn [obind].
  destruct (NR (qscale e3 (qc 1 8 * h)%Qc)) as (e & E11). rewrite E11. cbn [obind]. exists r4, e, (qscale e3 (qc 1 8 * h)%Qc). split; [reflexivity|]. split; [exact R4|]. split; [exact S4|]. split; [exact E11|].
  split; [unfold qscale; etransitivity; [apply length_scale|lia]|]. exists k3, k4, y, f4. split; [exact L3|]. split; [exact L4|]. split; [exact LY|]. split; [exact V3|].
  split; [intros j Hj; rewrite VY by exact Hj; ring|]. split; [exact E3|]. split.
  - revert V4. apply shifted_ext. intros j Hj. unfold vfun. fold (cmp_ b4 j). rewrite VB, VJ by exact Hj. unfold matvec.
    rewrite (qsum_ext n (fun k => (J j k * cmp_ dd k)%Qc) (fun k => (qc 2 3 * (J j k * cmp_ k1 k) + qc 6 1 * (J j k * cmp_ k2 k))%Qc)).
    + rewrite qsum_add, !qsum_scale. ring.
    + intros k Hk. rewrite VD by exact Hk. unfold qscale. rewrite cmp_scale. ring.
  - intros j Hj. unfold qscale. rewrite cmp_scale. rewrite VE3 by lia. rewrite VE2 by lia. rewrite cmp_scale. rewrite VE1 by lia. ring.
Qed.
End Stages.

(** * order *)
Lemma sw_order n J d f t x f0 g F : expands n f t x f0 g F -> exists C h0, (0 <= C)%Qc /\ (0 < h0)%Qc /\
  forall h k1 k2 next, (Qcabs h <= h0)%Qc -> sw_formula n J (h * d) (h * d) f t x f0 h k1 k2 next ->
    (norm1 n (fun j => (cmp_ next j - taylor2 n x f0 g F h j)%Qc) <= C * Qcabs h ^ 3)%Qc.
Proof.
  intros EX. pose proof (order2 n J d f t x f0 g F EX (fun i : inst => i) (iok n J d f t x f0) (fun i H => H)) as (C & h0 & A & B & Q).
  exists C, h0. split; [exact A|]. split; [exact B|]. intros h k1 k2 next L (L1 & L2 & L3 & S1 & (y & f2 & LY & VY & EF & S2) & VN).
  apply (Q (mkInst h k1 k2 next y f2)); [|exact L]. repeat split; assumption.
Qed.
Lemma sw_estimate_order n J d f t x f0 g F : expands n f t x f0 g F -> exists C h0, (0 <= C)%Qc /\ (0 < h0)%Qc /\
  forall h k1 k2 next f1 est, (Qcabs h <= h0)%Qc -> sw_formula n J (h * d) (h * d) f t x f0 h k1 k2 next -> f (t + h)%Qc next = Ret f1 ->
    sw_estimate n J (h * d) (h * d) f t h k1 k2 next f1 est -> (norm1 n (cmp_ est) <= C * Qcabs h ^ 3)%Qc.
Proof.
  intros EX. set (I := (inst * (list Qc * list Qc * list Qc * list Qc * list Qc))%type).
  set (k3 := fun i : I => fst (fst (fst (fst (snd i))))). set (k4 := fun i : I => snd (fst (fst (fst (snd i))))). set (y4 := fun i : I => snd (fst (fst (snd i)))). set (f1_ := fun i : I => snd (fst (snd i))). set (f4 := fun i : I => snd (snd i)).
  set (ok := fun i : I => iok n J d f t x f0 (fst i) /\ (length (i_next (fst i)) = n /\ f (t + i_h (fst i))%Qc (i_next (fst i)) = Ret (f1_ i) /\
    solves n (shifted (i_h (fst i) * d) J) (vfun (k3 i)) (vfun (f1_ i)) /\ length (y4 i) = n /\
    (forall j, j < n -> cmp_ (y4 i) j = (cmp_ (i_next (fst i)) j + qc 2 3 * i_h (fst i) * cmp_ (k3 i) j)%Qc) /\ f (t + qc 5 3 * i_h (fst i))%Qc (y4 i) = Ret (f4 i) /\
    solves n (shifted (i_h (fst i) * d) J) (vfun (k4 i)) (fun j => (cmp_ (f4 i) j + i_h (fst i) * d * (qc 2 3 * matvec n J (i_k1 (fst i)) j + qc 6 1 * matvec n J (i_k2 (fst i)) j))%Qc))).
  pose proof (estimate3 n J d f t x f0 g F EX (fun i : I => fst i) ok (fun i H => proj1 H) k3 k4 y4 f1_ f4 (fun i H => proj2 H)) as (C & h0 & A & B & Q).
  exists C, h0. split; [exact A|]. split; [exact B|]. intros h k1 k2 next f1 est L (L1 & L2 & L3 & S1 & (y & f2 & LY & VY & EF & S2) & VN) EF1 (LE & K3 & K4 & Y4 & F4 & LK3 & LK4 & LY4 & S3 & V4 & EF4 & S4 & VE).
  specialize (Q (mkInst h k1 k2 next y f2, (K3, K4, Y4, f1, F4))). cbn [fst snd i_h] in Q. eapply Qcle_trans; [|apply Q; [|exact L]].
  - rewrite (norm1_ext n (cmp_ est) (fun j => h * qc 1 8 * (qc 5 1 * (cmp_ K3 j - cmp_ k2 j) + cmp_ k1 j - cmp_ K4 j))%Qc) by exact VE. apply Qcle_refl.
  - split; [repeat split; assumption|]. split; [exact L3|]. split; [exact EF1|]. split; [exact S3|]. split; [exact LY4|]. split; [exact V4|]. split; [exact EF4|exact S4].
Qed.
